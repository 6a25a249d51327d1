(** set_value leaves the values at names that are neither above nor below the name it is given. *)
From Coq Require Import Lia ZifyBool ZifyNat ZifyN.
From Verif Require Import TotalFacts.
From Verif Require Import Str Regex Types Ast State Nom Keys Grammar Api Facts Spec RegexFacts NomFacts DateFacts RoundTrip Effects ScalarFacts ParseFacts WalkFacts IdFacts WriteFacts
  ApiSpec ApiFacts SetFacts UpdateFacts SafeFacts CtorFacts OutcomeSpec OutcomeFacts TabSetFacts OwnFacts.

(** ** The parts of a write *)
Lemma upd_ids : forall id nv c x, In x (ids (subcells (upd_c id nv c))) -> In x (ids (subcells c)) \/ (In id (ids (subcells c)) /\ In x (ids (tcells nv))).
Proof.
  intros id nv c. induction c as [i t IH] using cell_ind'; intros x I. rewrite upd_c_eq in I. rewrite ids_subcells in *. cbn [c_id c_val] in *.
  destruct I as [<-|I]; [left; left; auto|]. destruct (i =? id) eqn:Q.
  - right. split; auto. left. lia.
  - rewrite tcells_kids in I. rewrite upd_kids in I. apply in_ids_flat in I as (c1 & I1 & I2). apply in_map_iff in I1 as (c0 & <- & I1).
    rewrite Forall_forall in IH. destruct (IH _ I1 _ I2) as [A|[A B]].
    + left. right. rewrite tcells_kids. apply in_ids_flat. eauto.
    + right. split; auto. right. rewrite tcells_kids. apply in_ids_flat. eauto.
Qed.
Lemma upds_ids : forall ws c x, Forall (fun w => leaf (snd w)) ws -> In x (ids (subcells (upds ws c))) -> In x (ids (subcells c)).
Proof.
  unfold upds. induction ws as [|[id nv] ws IH]; intros c x F I; auto. inversion F; subst. cbn [fold_left fst snd] in *. apply IH in I; auto.
  apply upd_ids in I as [I|[_ I]]; auto. destruct nv; try contradiction; destruct I.
Qed.
Lemma upds_absent : forall ws c, Forall (fun w => ~ In (fst w) (ids (subcells c))) ws -> upds ws c = c.
Proof.
  unfold upds. induction ws as [|[id nv] ws IH]; intros c F; auto. inversion F; subst. cbn [fold_left fst snd] in *. rewrite upd_c_absent by auto. auto.
Qed.
(** ** Places under a write *)
Lemma kidkey_upd : forall K id nv t i, kidkey K (upd_tval id nv t) i = kidkey K t i.
Proof. intros K id nv t i. destruct t; auto. cbn [upd_tval kidkey]. rewrite nth_error_map. destruct (nth_error _ i); auto. Qed.
Lemma upd_here : forall id nv c, In id (ids (subcells c)) -> In id (ids (subcells (upd_c id nv c))).
Proof.
  intros id nv c. induction c as [i t IH] using cell_ind'; intros I. rewrite upd_c_eq. rewrite ids_subcells in *. cbn [c_id c_val] in *.
  destruct (i =? id) eqn:Q; [left; lia|]. right. destruct I as [->|I]; [lia|]. rewrite tcells_kids in *. rewrite upd_kids.
  apply in_ids_flat in I as (c1 & I1 & I2). apply in_ids_flat. exists (upd_c id nv c1). split; [apply in_map; auto|]. rewrite Forall_forall in IH. auto.
Qed.
Lemma loc_upd : forall id nv K c0 k d, loc K c0 k d -> forall x, NoDup (ids (subcells c0)) -> In x (ids (subcells d)) -> In x (ids (subcells (upd_c id nv c0))) ->
  ~ In x (ids (tcells nv)) -> loc K (upd_c id nv c0) k (upd_c id nv d).
Proof.
  intros id nv K c0 k d H. induction H as [K c|K i t j c' k c E H IH]; intros x N X1 X2 X3; [constructor|].
  rewrite ids_subcells in N. cbn [c_id c_val] in N. inversion N as [|y l N1 N2]; subst.
  assert (XT : In x (ids (tcells t))) by (eapply kid_ids; [exact E|eapply loc_ids; eauto]).
  rewrite upd_c_eq in X2 |- *. rewrite ids_subcells in X2. cbn [c_id c_val] in *. destruct X2 as [->|X2]; [contradiction|].
  destruct (i =? id); [contradiction|]. apply L_kid with (i := j) (c' := upd_c id nv c'); [rewrite upd_kids, nth_error_map, E; auto|].
  rewrite kidkey_upd. apply (IH x); auto; [eapply kid_nodup; eauto|].
  rewrite tcells_kids, upd_kids in X2. apply in_ids_flat in X2 as (c1 & I1 & I2). apply in_map_iff in I1 as (c2 & <- & I1).
  apply In_nth_error in I1 as (j2 & E2). assert (Z := I2). apply upd_ids in Z as [Z|[_ Z]]; [|contradiction].
  rewrite tcells_kids in N2. assert (j = j2) by (eapply (kid_dup (kids t) j j2 c' c2 x); eauto; eapply loc_ids; eauto). subst j2. rewrite E in E2. injection E2 as ->. exact I2.
Qed.
Lemma loc_upds : forall ws K c0 k d x, Forall (fun w => leaf (snd w)) ws -> loc K c0 k d -> NoDup (ids (subcells c0)) -> In x (ids (subcells d)) -> In x (ids (subcells (upds ws c0))) ->
  In x (ids (subcells (upds ws d))) -> loc K (upds ws c0) k (upds ws d).
Proof.
  unfold upds. induction ws as [|[id nv] ws IH]; intros K c0 k d x F H N X1 X2 X3; auto. inversion F as [|y l L F2]; subst. cbn [fold_left fst snd] in *.
  assert (NV : ids (tcells nv) = []) by (destruct nv; try contradiction; reflexivity).
  apply (IH _ _ _ _ x); auto.
  - assert (Y : In x (ids (subcells (upd_c id nv c0)))) by (eapply upds_ids; eauto). assert (Z : ~ In x (ids (tcells nv))) by (rewrite NV; auto).
    eapply loc_upd; eauto.
  - apply dup_upd; rewrite ?NV; auto; try (constructor; fail).
  - eapply upds_ids; eauto.
Qed.
Lemma kin_writes : forall ws s, Forall (fun w => leaf (snd w)) ws -> (forall k c, valof s.(p_map) k = Some c -> NoDup (ids (subcells c))) -> kin s.(p_map) ->
  kin (fold_left write ws s).(p_map).
Proof.
  intros ws s F N K k1 k2 c1 c2 V1 V2. rewrite map_writes in V1, V2.
  destruct (valof (p_map s) k1) as [d1|] eqn:E1; [|discriminate]. destruct (valof (p_map s) k2) as [d2|] eqn:E2; [|discriminate].
  injection V1 as <-. injection V2 as <-. intros (x & X1 & X2). assert (Y1 := X1). assert (Y2 := X2). apply upds_ids in Y1; auto. apply upds_ids in Y2; auto.
  destruct (K _ _ _ _ E1 E2) as [L|L]; [exists x; auto|left|right]; eapply loc_upds; eauto.
Qed.
(** parts of one value that have a part in common *)
Lemma loc_kin : forall K c0 k1 c1, loc K c0 k1 c1 -> forall k2 c2, loc K c0 k2 c2 -> NoDup (ids (subcells c0)) -> shares c1 c2 -> loc k1 c1 k2 c2 \/ loc k2 c2 k1 c1.
Proof.
  intros K c0 k1 c1 H. induction H as [K c|K id t i c' k1 c1 E H IH]; intros k2 c2 H2 N S; auto.
  rewrite ids_subcells in N. cbn [c_id c_val] in N. inversion N as [|y l N1 N2]; subst. inversion H2 as [|K0 id0 t0 j c'' k0 c E2 H3]; subst.
  - right. econstructor; eauto.
  - destruct S as (x & X1 & X2). assert (X : i = j).
    { rewrite tcells_kids in N2. eapply kid_dup; eauto; eapply loc_ids; eauto. }
    subst j. rewrite E in E2. injection E2 as <-. apply IH; auto; [eapply kid_nodup; eauto|exists x; auto].
Qed.
(** the only part of a value with its id is the value *)
Lemma loc_self : forall K c k d, loc K c k d -> NoDup (ids (subcells c)) -> In (c_id c) (ids (subcells d)) -> k = K /\ d = c.
Proof.
  intros K c k d H N I. destruct H as [|K id t i c' k c E H]; auto. exfalso. rewrite ids_subcells in N. cbn [c_id c_val] in *. inversion N; subst.
  apply H2. eapply kid_ids; eauto. eapply loc_ids; eauto.
Qed.
Lemma rfold_val : forall A (f : N -> A -> vmap -> res vmap) (k : str) (c : cell) (Q : Prop) l i0,
  (forall j x ma mb, nth_error l j = Some x -> f (i0 + N.of_nat j) x ma = Ok mb -> valof mb k = Some c -> valof ma k = Some c \/ Q) ->
  forall m m', rfold f i0 l m = Ok m' -> valof m' k = Some c -> valof m k = Some c \/ Q.
Proof.
  induction l as [|x l IH]; intros i0 H m m' E V; cbn [rfold] in E; [inversion E; subst; auto|].
  apply rbind_ok in E as (m1 & E1 & E). eapply IH in E as [E|E]; eauto.
  - apply (H 0%nat x m m1); auto. replace (i0 + N.of_nat 0) with i0 by lia. exact E1.
  - intros j y ma mb E2 E3. apply (H (S j) y); auto. replace (i0 + N.of_nat (S j)) with (i0 + 1 + N.of_nat j) by lia. exact E3.
Qed.
Lemma valof_keep : forall m k hv sb k' c, hget k m = Some hv -> valof (hput k (HashValue hv.(hv_value) sb) m) k' = Some c -> valof m k' = Some c.
Proof.
  intros m k hv sb k' c G V. rewrite valof_put in V. destruct (str_eqb k' k) eqn:Q; auto. apply str_eqb_eq in Q. subst. unfold valof. rewrite G. exact V.
Qed.
Lemma rebuild_loc : forall t id key m m' k c, rebuild_vector t id key false m = Ok m' -> valof m' k = Some c -> valof m k = Some c \/ loc key (Cell id t) k c.
Proof.
  induction t using tval_ind'; intros id key m m' k c E V; cbn [rebuild_vector] in E;
    try (inversion E; subst; destruct (hmem key m); [auto|]; rewrite valof_put in V; destruct (str_eqb k key) eqn:Q; auto; apply str_eqb_eq in Q; subst; cbn in V; injection V as <-; right; constructor).
  - destruct (hget key m) as [hv|]; [|discriminate]. eapply rfold_val with (Q := loc key (Cell id (TArray vals n1 n2)) k c) in E as [E|E]; eauto.
    + rewrite valof_put in E. destruct (str_eqb k key) eqn:Q; auto. apply str_eqb_eq in Q. subst. cbn in E. injection E as <-. right. constructor.
    + intros j x ma mb J E1 V1. rewrite Forall_forall in H. pose proof (nth_error_In _ _ J) as JI. eapply (H x JI) in E1 as [E1|E1]; eauto. right.
      apply L_kid with (i := j) (c' := av_val x); [cbn [kids]; rewrite nth_error_map, J; auto|]. cbn [kidkey]. destruct (av_val x). exact E1.
  - destruct (hget key m) as [hv|]; [|discriminate]. eapply rfold_val with (Q := loc key (Cell id (TInlineTable kvs ws)) k c) in E as [E|E]; eauto.
    + rewrite valof_put in E. destruct (str_eqb k key) eqn:Q; auto. apply str_eqb_eq in Q. subst. cbn in E. injection E as <-. right. constructor.
    + intros j x ma mb J E1 V1. rewrite Forall_forall in H. pose proof (nth_error_In _ _ J) as JI. eapply (H x JI) in E1 as [E1|E1]; eauto. right.
      apply L_kid with (i := j) (c' := kv_val (tk_kv x)); [cbn [kids]; rewrite nth_error_map, J; auto|]. cbn [kidkey]. rewrite J. destruct (kv_val (tk_kv x)). exact E1.
Qed.
Lemma rebuild_loc_top : forall t id key m m' k c, rebuild_vector t id key true m = Ok m' -> ~ leaf t -> valof m' k = Some c ->
  valof m k = Some c \/ exists i c', nth_error (kids t) i = Some c' /\ loc (kidkey key t i) c' k c.
Proof.
  intros t id key m m' k c E L V. destruct t; try (exfalso; apply L; exact Logic.I); cbn [rebuild_vector] in E.
  - destruct (hget key m) as [hv|] eqn:G; [|discriminate].
    match goal with |- _ \/ ?G => eapply rfold_val with (Q := G) in E as [E|E]; eauto end.
    + left. eapply valof_keep; eauto.
    + intros j x ma mb J E1 V1. eapply rebuild_loc in E1 as [E1|E1]; eauto. right. exists j, (av_val x). split; [cbn [kids]; rewrite nth_error_map, J; auto|].
      cbn [kidkey]. destruct (av_val x). exact E1.
  - destruct (hget key m) as [hv|] eqn:G; [|discriminate].
    match goal with |- _ \/ ?G => eapply rfold_val with (Q := G) in E as [E|E]; eauto end.
    + left. eapply valof_keep; eauto.
    + intros j x ma mb J E1 V1. eapply rebuild_loc in E1 as [E1|E1]; eauto. right. exists j, (kv_val (tk_kv x)). split; [cbn [kids]; rewrite nth_error_map, J; auto|].
      cbn [kidkey]. rewrite J. destruct (kv_val (tk_kv x)). exact E1.
Qed.

(** ** The invariant is kept *)
Lemma writes_tables : forall ws s, p_tables (fold_left write ws s) = p_tables s /\ p_last_table (fold_left write ws s) = p_last_table s.
Proof. induction ws as [|[id nv] ws IH]; intros s; auto. cbn [fold_left]. destruct (IH (write s (id, nv))) as [-> ->]. split; reflexivity. Qed.
Lemma ok_set : forall h s key v s' b, wf h s -> ok s -> set_value s key v = Ok (s', b) -> ok s'.
Proof.
  intros h s key v s' b W O H. destruct (wf_set _ _ _ _ _ _ W H) as (h' & W').
  assert (B : bounded s') by (intros k c V x I; eapply wf_valof_id; eauto). destruct O as (K & B0 & NM).
  apply set_value_cases in H. destruct H as [V|c ws V SS R|c ks n V SS KS C|c ks n nv m s1 V SS KS C L E R].
  - split; auto.
  - split; [|split; auto].
    + apply kin_writes; [|intros k d Vd; exact (wf_cells_nodup _ _ _ _ W ltac:(eassumption))|exact K]. eapply Forall_impl; [|eapply replace_writes; eauto]. cbv beta. tauto.
    + destruct (writes_tables ws s) as [T1 T2]. unfold named. rewrite T1, T2. exact NM.
  - split; [|split; auto]. cbn [p_map set_next set_map]. eapply kin_sub; [apply removed_sub|exact K].
  - split; [|split; auto]; [|subst s1; exact NM]. cbn [p_map set_next set_map].
    destruct (convert_cells v _ _ _ C) as [LN BT]. specialize (BT _ eq_refl). destruct BT as [ND BW].
    assert (FN : forall x, In x (ids (tcells nv)) -> p_next s <= x).
    { intros x I. apply in_ids_cell in I as (c' & I & <-). rewrite Forall_forall in BW. apply BW in I. lia. }
    (* the entries of the map before it is rebuilt *)
    assert (OLD : forall k d, valof s1.(p_map) k = Some d -> exists d0, valof s.(p_map) k = Some d0 /\ d = upd_c (c_id c) nv d0 /\ NoDup (ids (subcells d0)) /\
      (forall x, In x (ids (subcells d)) -> In x (ids (subcells d0)) \/ (In (c_id c) (ids (subcells d0)) /\ In x (ids (tcells nv))))).
    { intros k d Vd. rewrite E in Vd. cbn [write p_map set_root set_map set_next] in Vd. rewrite valof_upd in Vd.
      destruct (valof (removed ks (p_map s)) k) as [d0|] eqn:E0; [|discriminate]. injection Vd as <-. apply removed_sub in E0. exists d0. split; auto. split; auto.
      split; [exact (wf_cells_nodup _ _ _ _ W ltac:(eassumption))|]. intros x. apply upd_ids. }
    assert (NEW : forall k d, valof m k = Some d -> valof s1.(p_map) k = Some d \/
      (covers key k /\ loc key (Cell (c_id c) nv) k d /\ forall x, In x (ids (subcells d)) -> In x (ids (tcells nv)))).
    { intros k d Vd. eapply rebuild_loc_top in R as [X|(i & c' & I & X)]; eauto. right. split; [|split].
      - eapply covers_trans; [right; eapply kidkey_below; eauto|eapply loc_covers; eauto].
      - econstructor; eauto.
      - intros x J. eapply kid_ids; [exact I|]. eapply loc_ids; eauto. }
    assert (IDC : c_id c < p_next s) by (eapply B0; [exact V|left; auto]).
    assert (ND2 : NoDup (ids (subcells (Cell (c_id c) nv)))).
    { rewrite ids_subcells. cbn [c_id c_val]. constructor; auto. intros I. apply FN in I. lia. }
    assert (IDN : ~ In (c_id c) (ids (tcells nv))) by (intros I; apply FN in I; lia).
    assert (UP : forall k1 d1 k2 d2 x, valof s.(p_map) k1 = Some d1 -> NoDup (ids (subcells d1)) -> loc k1 d1 k2 d2 ->
      In x (ids (subcells (upd_c (c_id c) nv d1))) -> In x (ids (subcells (upd_c (c_id c) nv d2))) -> In x (ids (subcells d2)) \/ In (c_id c) (ids (subcells d2)) ->
      loc k1 (upd_c (c_id c) nv d1) k2 (upd_c (c_id c) nv d2)).
    { intros k1 d1 k2 d2 x V1 N1 L1 X1 X2 [X|X].
      - eapply loc_upd; eauto. intros Y. apply FN in Y. apply (loc_ids _ _ _ _ _ L1) in X. apply (B0 _ _ V1) in X. lia.
      - apply loc_upd with (x := c_id c); auto. apply upd_here. eapply loc_ids; eauto. }
    assert (MIX : forall k1 c1 k2 c2, valof s1.(p_map) k1 = Some c1 -> loc key (Cell (c_id c) nv) k2 c2 -> (forall x, In x (ids (subcells c2)) -> In x (ids (tcells nv))) -> shares c1 c2 -> loc k1 c1 k2 c2).
    { intros k1 c1 k2 c2 V1 L2 I2 (x & X1 & X2). apply OLD in V1 as (d1 & V1 & -> & N1 & J1). apply I2 in X2. pose proof (FN _ X2).
      apply J1 in X1 as [X1|[X1 _]]; [apply (B0 _ _ V1) in X1; lia|].
      assert (L1 : loc k1 d1 key c).
      { destruct (K _ _ _ _ V1 V) as [Z|Z]; auto; [exists (c_id c); split; auto; left; auto|].
        apply loc_self in Z as [-> ->]; auto; [constructor|]. exact (wf_cells_nodup _ _ _ _ W V). }
      eapply loc_trans; [|exact L2]. replace (Cell (c_id c) nv) with (upd_c (c_id c) nv c) by (rewrite upd_c_eq, N.eqb_refl; auto).
      apply loc_upd with (x := c_id c); auto; [left; auto|apply upd_here; auto]. }
    intros k1 k2 c1 c2 V1 V2 SH. apply NEW in V1, V2. destruct V1 as [V1|(CK1 & L1 & I1)], V2 as [V2|(CK2 & L2 & I2)].
    + apply OLD in V1 as (d1 & V1 & -> & N1 & J1). apply OLD in V2 as (d2 & V2 & -> & N2 & J2). destruct SH as (x & X1 & X2).
      assert (SD : (In x (ids (subcells d1)) /\ In x (ids (subcells d2))) \/ (In (c_id c) (ids (subcells d1)) /\ In (c_id c) (ids (subcells d2)))).
      { pose proof (J1 _ X1) as [Y1|[Y1 M1]]; pose proof (J2 _ X2) as [Y2|[Y2 M2]]; auto.
        - apply (B0 _ _ V1) in Y1. apply FN in M2. lia.
        - apply (B0 _ _ V2) in Y2. apply FN in M1. lia. }
      destruct (K _ _ _ _ V1 V2) as [Z|Z]; [destruct SD as [[]|[]]; eexists; split; eauto|left|right]; eapply UP; eauto; destruct SD as [[]|[]]; auto.
    + left. eapply MIX; eauto.
    + right. eapply MIX; eauto. destruct SH as (x & X1 & X2). exists x; auto.
    + eapply loc_kin; eauto.
Qed.
Lemma reach_ok : forall ovf s, reach ovf s -> ok s.
Proof.
  intros ovf s R. induction R as [|s i s' r R IH P|s k v s' b R IH S].
  - apply ok_new.
  - eapply ok_parse; eauto.
  - destruct (reach_wf _ _ R) as (h & W). eapply ok_set; eauto.
Qed.

(** ** Names off the line *)
Lemma frame_value : forall ovf s key v s' b k, reach ovf s -> set_value s key v = Ok (s', b) -> ~ covers key k -> ~ covers k key -> get_value s' k = get_value s k.
Proof.
  intros ovf s key v s' b k R H N1 N2. pose proof (reach_ok _ _ R) as (K & _ & _).
  assert (NK : k <> key) by (intros ->; apply N1, covers_refl). assert (NB : ~ below key k) by (intros X; apply N1; right; auto).
  pose proof H as H2. apply set_value_cases in H2.
  assert (AB : forall c d x, valof s.(p_map) key = Some c -> valof s.(p_map) k = Some d -> In x (ids (subcells c)) -> ~ In x (ids (subcells d))).
  { intros c d x V1 V2 I J. destruct (K _ _ _ _ V1 V2) as [X|X]; [exists x; auto|apply N1|apply N2]; eapply loc_covers; eauto. }
  destruct H2 as [V0|c ws V0 SS RP|c ks n V0 SS KS C|c ks n nv m s1 V0 SS KS C L E RB]; auto.
  - apply get_value_same. rewrite map_writes. destruct (valof (p_map s) k) as [d|] eqn:Ek; auto. rewrite upds_absent; auto.
    eapply Forall_impl; [|eapply replace_writes; eauto]. cbv beta. intros w [_ I]. eapply AB; eauto.
  - apply refused in H as (_ & X & _). apply X; auto.
  - apply get_value_same. cbn [p_map set_map set_next]. unfold valof. erewrite rebuild_only by eauto. subst s1. cbn [write p_map set_root set_map set_next].
    rewrite hget_upd, removed_keep.
    + destruct (hget k (p_map s)) as [[[d|] sb]|] eqn:Hk; auto. cbn [hv_value]. rewrite upd_c_absent; auto. eapply AB; eauto; [unfold valof; rewrite Hk; auto|left; auto].
    + intros I. destruct (get_all_subkeys_ok (p_map s) key) as (l & E3 & F). rewrite KS in E3. inversion E3; subst. rewrite Forall_forall in F. auto.
Qed.
Lemma frame_children : forall s key v s' b k, key <> root_key -> set_value s key v = Ok (s', b) -> k <> key -> ~ below key k -> get_children s' k = get_children s k.
Proof.
  intros s key v s' b k NR H NK NB. pose proof H as H2. apply set_value_cases in H2.
  destruct H2 as [V0|c ws V0 SS RP|c ks n V0 SS KS C|c ks n nv m s1 V0 SS KS C L E RB]; auto.
  - apply get_children_writes.
  - apply refused in H as (_ & X & _). apply X; auto.
  - unfold get_children. cbn [p_map set_map set_next].
    assert (X : (match k with [] => root_key | _ => k end) <> key /\ ~ below key (match k with [] => root_key | _ => k end)).
    { destruct k; split; auto. apply not_below_root. }
    erewrite rebuild_only by (eauto; tauto). subst s1. cbn [write p_map set_root set_map set_next]. rewrite hget_upd, removed_keep.
    + destruct (hget _ (p_map s)) as [[]|]; auto.
    + intros I. destruct (get_all_subkeys_ok (p_map s) key) as (l & E3 & F). rewrite KS in E3. inversion E3; subst. rewrite Forall_forall in F. apply X. auto.
Qed.
(** ** Names whose values are in one another *)
Lemma share_line : forall ovf s k1 k2 c1 c2, reach ovf s -> valof s.(p_map) k1 = Some c1 -> valof s.(p_map) k2 = Some c2 -> shares c1 c2 -> covers k1 k2 \/ covers k2 k1.
Proof. intros ovf s k1 k2 c1 c2 R V1 V2 S. apply reach_ok in R as (K & _). destruct (K _ _ _ _ V1 V2 S) as [L|L]; apply loc_covers in L; auto. Qed.
