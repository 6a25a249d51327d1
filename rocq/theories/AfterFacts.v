(** What is read later does not change what was read before. *)
From Coq Require Import Lia ZifyBool ZifyNat ZifyN.
From Verif Require Import Str Regex Types Ast State Nom Keys Grammar Api Facts Spec.
From Verif Require Import NomFacts ScalarFacts LineFacts FlatFacts RoundTrip ParseFacts Effects IdFacts DocSpec MixSpec PathFacts NestFacts SectFacts LookFacts.
From Verif Require Import DateFacts HeadSpec SafeFacts TotalFacts CountFacts CalmSpec CalmWalk CalmFacts DotSpec DotFacts FaultSpec FaultFacts ClashFacts AfterSpec.

(** ** Names below a key *)
Definition under (q n : str) : str := if str_eqb q root_key then n else q ++ lit "." ++ n.
Definition upre (q : str) : str := if str_eqb q root_key then [] else q ++ lit ".".
Lemma under_pre : forall q n, under q n = upre q ++ n.
Proof. intros q n. unfold under, upre. destruct (str_eqb q root_key); auto. rewrite <- app_assoc. auto. Qed.
Lemma upre_dot : forall q, dot_end (upre q).
Proof. intros q. unfold upre. destruct (str_eqb q root_key); [left; auto|apply dot_end_dot]. Qed.
Lemma under_inj : forall q n q' n', name_text n -> name_text n' -> under q n = under q' n' -> q = q' /\ n = n'.
Proof.
  intros q n q' n' N N' E. rewrite !under_pre in E. pose proof (last_name_eq _ _ _ _ E (upre_dot q) (upre_dot q') N N') as Q. subst n'.
  split; auto. apply app_inv_tail in E. unfold upre in E. destruct (str_eqb_spec q root_key) as [->|A], (str_eqb_spec q' root_key) as [->|B]; auto.
  - destruct q'; discriminate.
  - destruct q; discriminate.
  - apply app_inv_tail in E. auto.
Qed.
Lemma under_bracket : forall q n p i, name_text n -> under q n <> p ++ idx_str i.
Proof.
  intros q n p i N E. rewrite under_pre in E. apply (not_bracket (upre q) n N). exists (p ++ lit "[" ++ dec i). rewrite E. unfold idx_str.
  rewrite <- !app_assoc. reflexivity.
Qed.
Lemma idx_end_inj : forall p q i j, p ++ idx_str i = q ++ idx_str j -> p = q.
Proof.
  intros p q i j E. unfold idx_str in E. rewrite !app_assoc in E. apply app_inj_tail in E as [E _].
  assert (X : forall (a : str) p q b, p ++ lit "[" ++ a = q ++ lit "[" ++ b -> (forall c, In c a -> 48 <= c <= 57) -> (forall c, In c b -> 48 <= c <= 57) -> p = q).
  { clear. induction a as [|c a IH] using rev_ind; intros p q b E A B.
    - destruct b as [|d b] using rev_ind; [rewrite !app_nil_r in E; apply app_inv_tail in E; auto|]. clear IHb. exfalso.
      rewrite app_nil_r, !app_assoc in E. change (lit "[") with [91] in E. apply app_inj_tail in E as [_ E]. specialize (B d). rewrite in_app_iff in B. cbn [In] in B. lia.
    - destruct b as [|d b] using rev_ind; [|clear IHb].
      + exfalso. rewrite app_nil_r, !app_assoc in E. change (q ++ lit "[") with (q ++ [91]) in E. apply app_inj_tail in E as [_ E].
        specialize (A c). rewrite in_app_iff in A. cbn [In] in A. lia.
      + rewrite !app_assoc in E. apply app_inj_tail in E as [E _]. rewrite <- !app_assoc in E. eapply IH; eauto; intros x I; [apply A|apply B]; apply in_app_iff; auto. }
  rewrite <- !app_assoc in E. eapply X; eauto; intros c I; eapply dec_digits; eauto.
Qed.

Definition isarr (t : table_type) : Prop := match t with TArrayOf _ => True | _ => False end.
Definition stk (ts : list table_type) : Prop := exists a, Forall isarr a /\ (ts = a \/ exists t, ts = a ++ [TStandard t]).
Lemma stk_arr : forall ts, Forall isarr ts -> stk ts.
Proof. intros ts H. exists ts. auto. Qed.
Lemma stk_std : forall ts t, Forall isarr ts -> stk (vpush ts (TStandard t)).
Proof. intros ts t H. exists ts. unfold vpush. eauto. Qed.
Lemma pop_arr : forall ts, Forall isarr ts -> Forall isarr (vpop ts).
Proof.
  intros ts H. destruct ts as [|t ts] using rev_ind; [constructor|]. rewrite vpop_last. apply Forall_app in H as [H _]. auto.
Qed.
Lemma stk_pop : forall ts, stk ts -> Forall isarr (vpop ts).
Proof. intros ts (a & F & [->|(t & ->)]); [apply pop_arr; auto|rewrite vpop_last; auto]. Qed.
Lemma stk_top : forall ts, stk ts -> is_top_std_table ts = false -> Forall isarr ts.
Proof. intros ts (a & F & [->|(t & ->)]) H; auto. unfold is_top_std_table in H. rewrite vlast_last in H. discriminate. Qed.
Lemma tail_arr : forall ts a p, Forall isarr ts -> rev ts = p ++ a -> Forall isarr (rev a).
Proof.
  intros ts a p H E. rewrite <- (rev_involutive ts), E, rev_app_distr in H. apply Forall_app in H as [H _]. auto.
Qed.

(** ** The full key of a header *)
Lemma gatk_std_end : forall ovf m ti ts t n i pe v fk pk fk' pk', (n + i)%nat = S (length ts) -> (0 < n)%nat ->
  gatk_loop ovf m (ts ++ [TStandard t]) ti n i pe v fk pk = Ok (true, fk', pk') -> key_has_value m fk' = false.
Proof.
  intros ovf m ti ts t. induction n as [|n IH]; intros i pe v fk pk fk' pk' L N H; [lia|]. cbn [gatk_loop] in H.
  apply rbind_ok in H as (tt & V & H). destruct n as [|n].
  - assert (i = length ts) as -> by lia. unfold vindex in V. rewrite nth_error_app2, Nat.sub_diag in V by lia. inversion V; subst tt.
    destruct (gatk_std m (skipn pe (get_last_keys t)) v fk pk) as [[v1 fk1] pk1]. cbn [gatk_loop] in H. inversion H; subst.
    apply andb_prop in H1 as [_ H1]. apply Bool.negb_true_iff in H1. auto.
  - destruct tt as [tb|tb].
    + destruct (gatk_std m (skipn pe (get_last_keys tb)) v fk pk) as [[v1 fk1] pk1]. eapply IH; [| |exact H]; lia.
    + apply rbind_ok in H as (fk1 & _ & H). apply rbind_ok in H as (ix & _ & H). destruct (Nat.ltb i (length ti - 1)); (eapply IH; [| |exact H]; lia).
Qed.
Lemma gatk_arr_end : forall ovf m ti ts t n i pe v fk pk fk' pk', (n + i)%nat = S (length ts) -> (0 < n)%nat -> length ti = S (length ts) ->
  gatk_loop ovf m (ts ++ [TArrayOf t]) ti n i pe v fk pk = Ok (true, fk', pk') ->
  exists f j, fk' = f ++ idx_str j /\ forall c sub, hget f m <> Some (HashValue (Some c) sub).
Proof.
  intros ovf m ti ts t. induction n as [|n IH]; intros i pe v fk pk fk' pk' L N LT H; [lia|]. cbn [gatk_loop] in H.
  apply rbind_ok in H as (tt & V & H). destruct n as [|n].
  - assert (i = length ts) as -> by lia. unfold vindex in V. rewrite nth_error_app2, Nat.sub_diag in V by lia. inversion V; subst tt.
    apply rbind_ok in H as (fk1 & _ & H). apply rbind_ok in H as (ix & _ & H).
    assert (Nat.ltb (length ts) (length ti - 1) = false) as Q by (apply Nat.ltb_ge; lia). rewrite Q in H. cbn [gatk_loop] in H.
    set (f := fk1 ++ last (get_last_keys t) []) in *.
    assert (E : f ++ idx_str ix = fk') by (inversion H; auto). exists f, ix. split; [symmetry; exact E|].
    intros c sub X. rewrite X in H. cbn [hv_value] in H. discriminate H.
  - destruct tt as [tb|tb].
    + destruct (gatk_std m (skipn pe (get_last_keys tb)) v fk pk) as [[v1 fk1] pk1]. eapply IH; [| | |exact H]; lia.
    + apply rbind_ok in H as (fk1 & _ & H). apply rbind_ok in H as (ix & _ & H). destruct (Nat.ltb i (length ti - 1)); (eapply IH; [| | |exact H]; lia).
Qed.

(** ** Entries that stay *)
Section Prot.
Variable E : str -> option cell -> Prop.

Definition kept_at (m : vmap) (k : str) (o : option cell) : Prop :=
  match o with
  | Some c => c.(c_val) <> TTable /\ exists ch, hget k m = Some (HashValue (Some c) ch)
  | None => exists pv l, hget k m = Some (HashValue pv (Keys l))
  end.
Definition anchored (m : vmap) (k : str) : Prop :=
  k = root_key \/ (exists p i c, k = p ++ idx_str i /\ E p (Some c)) \/
  (exists q n o pv l, name_text n /\ k = under q n /\ E q o /\ hget q m = Some (HashValue pv (Keys l)) /\ In n l).
Definition prot (m : vmap) : Prop := forall k o, E k o -> kept_at m k o /\ anchored m k.

Definition gentle (m m' : vmap) : Prop := forall k o v sub, E k o -> hget k m = Some (HashValue v sub) ->
  exists v' sub', hget k m' = Some (HashValue v' sub') /\
    (forall c, o = Some c -> v = Some c -> v' = Some c) /\
    (forall l, sub = Keys l -> exists l', sub' = Keys l' /\ incl l l').
Lemma gentle_refl : forall m, gentle m m.
Proof. intros m k o v sub _ H. exists v, sub. split; auto. split; auto. intros l ->. exists l. split; auto. apply incl_refl. Qed.
Lemma gentle_trans : forall a b c, gentle a b -> gentle b c -> gentle a c.
Proof.
  intros a b c H1 H2 k o v sub EK H. destruct (H1 _ _ _ _ EK H) as (v1 & s1 & X & A & B). destruct (H2 _ _ _ _ EK X) as (v2 & s2 & Y & A2 & B2).
  exists v2, s2. split; auto. split.
  - intros cl C T. apply A2; auto.
  - intros l L. destruct (B l L) as (l1 & -> & I). destruct (B2 l1 eq_refl) as (l2 & -> & I2). exists l2. split; auto. eapply incl_tran; eauto.
Qed.
Lemma gentle_prot : forall m m', gentle m m' -> prot m -> prot m'.
Proof.
  intros m m' G P k o EK. destruct (P k o EK) as [A B]. split.
  - destruct o as [c|]; cbn [kept_at] in *.
    + destruct A as [T [ch A]]. split; auto. destruct (G _ _ _ _ EK A) as (v & sub & X & V & _). rewrite (V c eq_refl eq_refl) in X. eauto.
    + destruct A as (pv & l & A). destruct (G _ _ _ _ EK A) as (v & sub & X & _ & S). destruct (S l eq_refl) as (l' & -> & _). eauto.
  - destruct B as [B|[B|(q & n & o' & pv & l & N & KE & EQ & H & I)]]; [left; auto|right; left; auto|]. right. right.
    destruct (G _ _ _ _ EQ H) as (v & sub & X & _ & S). destruct (S l eq_refl) as (l' & -> & IN). exists q, n, o', v, l'. auto 6.
Qed.
Lemma gentle_put : forall m k v sub v' sub', hget k m = Some (HashValue v sub) -> (forall c, E k (Some c) -> v = Some c -> v' = Some c) ->
  (forall l, sub = Keys l -> exists l', sub' = Keys l' /\ incl l l') -> gentle m (hput k (HashValue v' sub') m).
Proof.
  intros m k v sub v' sub' H A B x o v0 s0 EX HX. destruct (list_eq_dec N.eq_dec x k) as [->|Q].
  - rewrite H in HX. inversion HX; subst. rewrite hget_hput_same. do 2 eexists. split; [reflexivity|]. split; auto. intros c ->. apply A; auto.
  - rewrite hget_hput_other by auto. apply (gentle_refl m x o v0 s0 EX HX).
Qed.
Lemma gentle_not : forall m k hv, (forall o, ~ E k o) -> gentle m (hput k hv m).
Proof.
  intros m k hv H x o v0 s0 EX HX. destruct (list_eq_dec N.eq_dec x k) as [->|Q]; [exfalso; eapply H; eauto|].
  rewrite hget_hput_other by auto. apply (gentle_refl m x o v0 s0 EX HX).
Qed.
Lemma gentle_new : forall m k hv, hget k m = None -> gentle m (hput k hv m).
Proof.
  intros m k hv H x o v0 s0 EX HX. destruct (list_eq_dec N.eq_dec x k) as [->|Q]; [congruence|].
  rewrite hget_hput_other by auto. apply (gentle_refl m x o v0 s0 EX HX).
Qed.
Lemma incl_insert : forall l x, incl l (fst (vinsert l x)).
Proof. intros l x y I. unfold vinsert. destruct (vcontains l x); cbn [fst]; auto. unfold vpush. apply in_app_iff. auto. Qed.
Lemma gentle_insert : forall m k hv l x, hget k m = Some hv -> hv.(hv_subkeys) = Keys l -> gentle m (hput k (HashValue hv.(hv_value) (Keys (fst (vinsert l x)))) m).
Proof.
  intros m k [v sub] l x H S. cbn [hv_subkeys hv_value] in *. subst sub. eapply gentle_put; eauto. intros l0 Q. inversion Q; subst. eexists. split; [reflexivity|apply incl_insert].
Qed.
Lemma gentle_count : forall m k hv c c', hget k m = Some hv -> hv.(hv_subkeys) = Count c -> gentle m (hput k (HashValue hv.(hv_value) (Count c')) m).
Proof. intros m k [v sub] c c' H S. cbn [hv_subkeys hv_value] in *. subst sub. eapply gentle_put; eauto. intros l Q. discriminate. Qed.

(** a name that the entry does not list is not one of these *)
Lemma not_under : forall m q n, prot m -> name_text n ->
  (forall pv l, hget q m = Some (HashValue pv (Keys l)) -> ~ In n l) -> forall o, ~ E (under q n) o.
Proof.
  intros m q n P N H o EK. destruct (P _ _ EK) as [_ [Q|[(p & i & c & Q & _)|(q' & n' & o' & pv & l & N' & Q & _ & G & I)]]].
  - rewrite under_pre in Q. eapply name_not_root; eauto.
  - eapply under_bracket; eauto.
  - apply under_inj in Q as [<- <-]; auto. eapply H; eauto.
Qed.

Lemma ait_gentle : forall ks m first lk m', Forall name_text (map wk_key ks) -> prot m -> ait_loop m ks first lk = Ok m' -> gentle m m'.
Proof.
  induction ks as [|k ks IH]; intros m first lk m' F P H; cbn [ait_loop] in H; [inversion H; subst; apply gentle_refl|].
  cbn [map] in F. inversion F as [|? ? NK F']; subst. apply rbind_ok in H as ([[m1 ins] f1] & H1 & H).
  assert (G1 : gentle m m1 /\ (ins = true -> forall pv l, hget lk m = Some (HashValue pv (Keys l)) -> ~ In (wk_key k) l)).
  { destruct (hget lk m) as [hv|] eqn:Q.
    - destruct (hv_subkeys hv) as [c|l] eqn:S.
      + destruct first; inversion H1; subst. split; [eapply gentle_count; eauto|]. intros _ pv l X. inversion X; subst. discriminate.
      + destruct (vinsert l (wk_key k)) as [l' i] eqn:V. inversion H1; subst.
        assert (EL : l' = fst (vinsert l (wk_key k))) by (rewrite V; auto). rewrite EL. split; [eapply gentle_insert; eauto|].
        intros -> pv l0 X I. inversion X; subst hv. cbn [hv_subkeys] in S. inversion S; subst l0. unfold vinsert in V. apply vcontains_in in I. rewrite I in V. discriminate V.
    - inversion H1; subst. split; [apply gentle_refl|discriminate]. }
  destruct G1 as [G1 NI]. destruct ks as [|k2 ks]; [inversion H; subst; auto|].
  change (if str_eqb lk root_key then wk_key k else lk ++ lit "." ++ wk_key k) with (under lk (wk_key k)) in H.
  assert (G2 : gentle m1 (if ins then hput (under lk (wk_key k)) hv_none_keys m1 else m1)).
  { destruct ins; [|apply gentle_refl]. apply gentle_not. intros o. exact (not_under m lk (wk_key k) P NK (NI eq_refl) o). }
  eapply gentle_trans; [exact G1|]. eapply gentle_trans; [exact G2|]. eapply IH; [exact F'| |exact H].
  eapply gentle_prot; [exact G2|]. eapply gentle_prot; eauto.
Qed.
Lemma implicit_gentle : forall ovf m ts ti t m', Forall name_text (map wk_key (tt_table t)) -> prot m ->
  add_implicit_tables ovf m ts ti t = Ok m' -> gentle m m'.
Proof.
  intros ovf m ts ti t m' F P H. unfold add_implicit_tables in H. apply rbind_ok in H as ([[v lk] pk] & _ & H).
  destruct v; cbn [negb] in H; [|inversion H; subst; apply gentle_refl]. destruct (match vlast ts with None => _ | Some l => _ end) as [n lk'].
  eapply ait_gentle; [|exact P|exact H]. apply Forall_forall. intros x I. rewrite Forall_forall in F. apply F.
  apply in_map_iff in I as (y & <- & I). apply in_map. rewrite <- (firstn_skipn (if str_eqb lk' root_key then n - 1 else n) (tt_table t)). apply in_app_iff. auto.
Qed.
Lemma increment_gentle : forall m ts ti m' ti', increment_array_table_index m ts ti = Ok (m', ti') -> gentle m m'.
Proof.
  intros m ts ti m' ti' H. unfold increment_array_table_index in H. apply rbind_ok in H as (pk & _ & H).
  assert (G : m' = match hget pk m with Some hv => match hv.(hv_subkeys) with Count c => hput pk (HashValue hv.(hv_value) (Count (c + 1))) m | Keys _ => m end | None => m end).
  { destruct (vlast ti); inversion H; auto. }
  subst m'. destruct (hget pk m) as [hv|] eqn:Q; [|apply gentle_refl]. destruct (hv_subkeys hv) eqn:S; [|apply gentle_refl]. eapply gentle_count; eauto.
Qed.
Lemma parent_gentle : forall m pk kc m', update_parent m pk kc = Ok m' -> gentle m m'.
Proof.
  intros m pk kc m' H. unfold update_parent in H. destruct (hget pk m) as [hv|] eqn:Q.
  - destruct (hv_subkeys hv) as [c|l] eqn:S.
    + inversion H; subst. eapply gentle_count; eauto.
    + destruct (vlast kc) as [[n|i]|]; inversion H; subst; [eapply gentle_insert; eauto|apply gentle_refl].
  - destruct (vlast kc) as [[n|i]|]; inversion H; subst; apply gentle_new; auto.
Qed.
Lemma insert_gentle : forall s c s', insert_keyval_into_map s c = Ok s' -> gentle s.(p_map) s'.(p_map).
Proof.
  intros s c s' H. unfold insert_keyval_into_map in H. apply rbind_ok in H as ([fk pk] & _ & H).
  destruct (hget fk (p_map s)) as [[[c0|] sub]|] eqn:Q.
  - apply rbind_ok in H as (v & _ & H). inversion H; subst. apply gentle_refl.
  - apply rbind_ok in H as (m & H & H2). inversion H2; subst. cbn [p_map set_map]. eapply gentle_trans; [|eapply parent_gentle; eauto].
    eapply gentle_put; eauto; [discriminate|]. intros l ->. exists l. split; auto. apply incl_refl.
  - apply rbind_ok in H as (m & H & H2). inversion H2; subst. cbn [p_map set_map]. eapply gentle_trans; [|eapply parent_gentle; eauto].
    apply gentle_new; auto.
Qed.

(** ** The state *)
Record pinv (s : pst) : Prop := {
  pi_even : even s;
  pi_stk : stk s.(p_tables);
  pi_prot : prot s.(p_map) }.
Definition stays (s s' : pst) : Prop := pinv s -> pinv s' /\ gentle s.(p_map) s'.(p_map).
Lemma stays_trans : forall a b c, stays a b -> stays b c -> stays a c.
Proof. intros a b c H H2 X. destruct (H X) as [Y G]. destruct (H2 Y) as [Z G2]. split; auto. eapply gentle_trans; eauto. Qed.
Lemma stays_intro : forall s s', prot s.(p_map) -> even s' -> stk s'.(p_tables) -> gentle s.(p_map) s'.(p_map) -> pinv s' /\ gentle s.(p_map) s'.(p_map).
Proof. intros s s' P EV S G. split; auto. constructor; auto. eapply gentle_prot; eauto. Qed.
Lemma stays_same : forall s s', s'.(p_tables) = s.(p_tables) -> s'.(p_tindex) = s.(p_tindex) -> s'.(p_map) = s.(p_map) -> stays s s'.
Proof. intros s s' A B C [X Y Z]. unfold even in *. apply stays_intro; unfold even; rewrite ?A, ?B, ?C; auto. apply gentle_refl. Qed.
Lemma stays_insert : forall s c s', insert_keyval_into_map s c = Ok s' -> stays s s'.
Proof.
  intros s c s' H [X Y Z]. pose proof (insert_gentle _ _ _ H) as G. assert (p_tables s' = p_tables s /\ p_tindex s' = p_tindex s) as [A B].
  { apply insert_effect in H as [(fk & v & ->)|(m & ->)]; auto. }
  unfold even in *. apply stays_intro; unfold even; rewrite ?A, ?B; auto.
Qed.

Lemma stays_std : forall w1 w2 k l s s' t, name_text k -> Forall name_text (map wk_key l) -> std_table_act w1 w2 k l s = Ok (s', t) -> stays s s'.
Proof.
  intros w1 w2 k l s s' t NK NL H [EV ST PR]. unfold std_table_act in H. apply rbind_ok in H as (s1 & K & H).
  unfold keychain_drop in K. destruct (Nat.ltb _ _); [discriminate|].
  match type of K with Ok (set_keychain ?c _) = _ => set (kc := c) in K; clearbody kc end.
  inversion K; subst; clear K. unfold even in *. cbn [p_tables p_tindex p_map p_ovf set_keychain] in H.
  set (res := TStandard (table_new {| ws1 := w1; ws2 := w2 |} k l)) in *.
  match type of H with (let '(_, _) := ?x in _) = _ => destruct x as [ts ti] eqn:A end.
  assert (EA : length ti = length ts /\ Forall isarr ts).
  { destruct (is_top_std_table (p_tables s)) eqn:TOP; cbn [orb] in A; [inversion A; subst; rewrite !pop_len; split; [auto|apply stk_pop; auto]|].
    destruct (equal_key_length res (p_tables s)); inversion A; subst; rewrite ?pop_len; (split; [auto|]); [apply stk_pop; auto|apply stk_top; auto]. }
  clear A. match type of H with (let '(_, _) := ?x in _) = _ => destruct x as [ts2 ti2] eqn:A end.
  assert (EB : length ti2 = length ts2 /\ Forall isarr ts2).
  { destruct EA as [L F]. destruct (vlast ts) as [l0|]; [|inversion A; subst; auto].
    destruct (str_eqb _ _); [inversion A; subst; auto|]. destruct (is_subtable_of _ _); [inversion A; subst; auto|].
    destruct (pop_until_sub res (rev ts) (rev ti)) as [a b] eqn:Q. apply until_sub in Q as [Q [p Q2]]; [|rewrite !rev_length; auto].
    inversion A; subst. rewrite !rev_length. split; auto. eapply tail_arr; eauto. }
  clear A EA ts ti. destruct EB as [EB AB].
  apply rbind_ok in H as ([[e tk] pk] & TK & H). destruct e.
  - apply rbind_ok in H as ([[x y] z] & _ & H). inversion H; subst. apply stays_intro; cbn; auto; [apply stk_arr; auto|apply gentle_refl].
  - assert (NV : key_has_value (p_map s) tk = false).
    { match type of TK with (if ?b then _ else _) = _ => destruct b end; [discriminate TK|].
      apply rbind_ok in TK as ([[v tk1] pk1] & G & TK). destruct v; cbn [negb] in TK; [|discriminate TK].
      apply rbind_ok in TK as (b & _ & TK). destruct b; [discriminate TK|]. assert (tk1 = tk) as -> by (inversion TK; auto).
      unfold get_array_table_key in G. unfold vpush in G. eapply gatk_std_end in G; auto; rewrite app_length; cbn [length]; lia. }
    clear TK. apply rbind_ok in H as (m & M1 & H). apply rbind_ok in H as (m2 & M2 & H).
    unfold new_cell in H. apply rbind_ok in H as (m3 & M3 & H). inversion H; subst s' t. clear H.
    apply stays_intro; cbn; auto.
    + unfold even. cbn. rewrite !push_len. auto.
    + apply stk_std; auto.
    + assert (FN : Forall name_text (map wk_key (tt_table res))) by (cbn; constructor; auto).
      pose proof (implicit_gentle _ _ _ _ _ _ FN PR M1) as G1. pose proof (gentle_prot _ _ G1 PR) as P1.
      assert (G2 : gentle m m2).
      { unfold add_to_table_set in M2. apply rbind_ok in M2 as (pk2 & _ & M2). destruct (hget pk2 m) as [hv|] eqn:Q; [|inversion M2; subst; apply gentle_refl].
        destruct (hv_subkeys hv) eqn:S; inversion M2; subst; [apply gentle_refl|eapply gentle_insert; eauto]. }
      pose proof (gentle_prot _ _ G2 P1) as P2. eapply gentle_trans; [exact G1|]. eapply gentle_trans; [exact G2|]. cbn [p_next set_keychain] in M3.
      match type of M3 with match hget _ ?x with _ => _ end = _ => set (m2' := x) in * end.
      assert (G3 : gentle m2 m2').
      { unfold m2'. destruct (hget tk m2) as [[v sub]|] eqn:Q; [|apply gentle_new; auto]. cbn [hv_subkeys].
        intros x o v0 s0 EX HX. destruct (list_eq_dec N.eq_dec x tk) as [->|D].
        - rewrite Q in HX. inversion HX; subst v0 s0. rewrite hget_hput_same. do 2 eexists. split; [reflexivity|]. split.
          + intros c -> _. exfalso. destruct (PR _ _ EX) as [[T' [ch X]] _]. unfold key_has_value in NV. rewrite X in NV. cbn [hv_value] in NV.
            destruct (c_val c); congruence.
          + intros l0 ->. eexists. split; [reflexivity|apply incl_refl].
        - rewrite hget_hput_other by auto. apply (gentle_refl m2 x o v0 s0 EX HX). }
      eapply gentle_trans; [exact G3|]. destruct (hget pk m2') as [hv|] eqn:Q; [|inversion M3; subst; apply gentle_refl].
      destruct (hv_subkeys hv) eqn:S; inversion M3; subst. eapply gentle_insert; eauto.
Qed.

Lemma push_arr : forall ts t, Forall isarr ts -> Forall isarr (vpush ts (TArrayOf t)).
Proof. intros ts t H. unfold vpush. apply Forall_app. split; auto. constructor; [exact I|constructor]. Qed.
Lemma arr_last : forall ts, ts <> [] -> Forall isarr ts -> exists a t, ts = a ++ [TArrayOf t].
Proof.
  intros ts N F. destruct ts as [|x a] using rev_ind; [congruence|]. apply Forall_app in F as [_ F]. inversion F as [|? ? X]; subst.
  destruct x; [destruct X|eauto].
Qed.
Lemma stays_arr : forall w1 w2 k l s s' t, name_text k -> Forall name_text (map wk_key l) -> array_table_act w1 w2 k l s = Ok (s', t) -> stays s s'.
Proof.
  intros w1 w2 k l s s' t NK NL H [EV ST PR]. pose proof (arr_even _ _ _ _ _ _ _ H EV) as EV'. unfold array_table_act in H. apply rbind_ok in H as (s1 & K & H).
  unfold keychain_drop in K. destruct (Nat.ltb _ _); [discriminate|].
  match type of K with Ok (set_keychain ?c _) = _ => set (kc := c) in K; clearbody kc end.
  inversion K; subst; clear K. unfold even in EV. cbn [p_tables p_tindex p_map p_ovf set_keychain set_array_error] in H.
  set (res := TArrayOf (table_new {| ws1 := w1; ws2 := w2 |} k l)) in *.
  match type of H with (let '(_, _) := ?x in _) = _ => destruct x as [ts ti] eqn:A end.
  assert (EA : length ti = length ts /\ Forall isarr ts).
  { destruct (is_top_std_table (p_tables s)) eqn:TOP; inversion A; subst; rewrite ?pop_len; split; auto; [apply stk_pop|apply stk_top]; auto. }
  destruct EA as [LA FA]. clear A.
  apply rbind_ok in H as ([[m ts2] ti2] & M & H).
  assert (FN : Forall name_text (map wk_key (tt_table res))) by (cbn; constructor; auto).
  assert (EB : gentle (p_map s) m /\ ts2 <> [] /\ Forall isarr ts2).
  { destruct (vlast ts) as [l0|] eqn:LT.
    - assert (TN : ts <> []) by (intros ->; discriminate LT). destruct (str_eqb _ _).
      + apply rbind_ok in M as ([m1 ti1] & I & M). inversion M; subst. apply increment_gentle in I. auto.
      + destruct (is_subtable_of _ _).
        * apply rbind_ok in M as (m1 & I & M). inversion M; subst. split; [eapply implicit_gentle; eauto|]. split; [unfold vpush; destruct ts; discriminate|apply push_arr; auto].
        * destruct (pop_until_key _ _ _) as [a b] eqn:Q. apply until_key in Q as [Q [p Q2]]; [|rewrite !rev_length; auto].
          destruct (rev a) as [|x y] eqn:RA.
          -- apply rbind_ok in M as (m1 & I & M). apply rbind_ok in M as (pk & _ & M).
             pose proof (implicit_gentle _ _ _ _ _ _ FN PR I) as G.
             destruct (hmem pk m1); [|inversion M; subst; split; [exact G|split; [discriminate|apply (push_arr []); constructor]]].
             apply rbind_ok in M as ([m2 ti3] & I2 & M). inversion M; subst. apply increment_gentle in I2.
             split; [eapply gentle_trans; eauto|split; [discriminate|apply (push_arr []); constructor]].
          -- apply rbind_ok in M as ([m1 ti1] & I & M). inversion M; subst. apply increment_gentle in I. split; auto. split; [discriminate|].
             rewrite <- RA. eapply tail_arr; eauto.
    - apply rbind_ok in M as (m1 & I & M). inversion M; subst. split; [eapply implicit_gentle; eauto|]. split; [unfold vpush; destruct ts; discriminate|apply push_arr; auto]. }
  destruct EB as (G & N2 & F2). clear M. pose proof (gentle_prot _ _ G PR) as P2.
  apply rbind_ok in H as ([[v fk] pk] & TK & H).
  destruct v; cbn [negb] in H; inversion H; subst s' t; clear H; (apply stays_intro; [exact PR|exact EV'|cbn; apply stk_arr; auto|cbn]); [|exact G].
  unfold even in EV'. cbn in EV'.
  assert (G1 : gentle m (if hmem pk m then m else hput pk hv_one_count m)).
  { unfold hmem. destruct (hget pk m) eqn:Q; [apply gentle_refl|apply gentle_new; auto]. }
  eapply gentle_trans; [exact G|]. eapply gentle_trans; [exact G1|]. apply gentle_not. intros o EK.
  destruct (arr_last ts2 N2 F2) as (a & tb & ->). unfold get_array_table_key in TK.
  assert (LE : length ti2 = S (length a)) by (rewrite EV', app_length; cbn [length]; lia).
  assert (LN : (length (a ++ [TArrayOf tb]) + 0)%nat = S (length a)) by (rewrite app_length; cbn [length]; lia).
  assert (LP : (0 < length (a ++ [TArrayOf tb]))%nat) by lia.
  rewrite <- EV' in LN, LP; pose proof (gatk_arr_end _ _ _ _ _ _ _ _ _ _ _ _ _ LN LP LE TK) as TK2. clear TK. rename TK2 into TK.
  destruct TK as (f & j & -> & NV). destruct (P2 _ _ EK) as [_ [Q|[(p & i & c & Q & EP)|(q' & n' & o' & pv & l0 & N' & Q & _ & _ & _)]]].
  - unfold idx_str in Q. rewrite !app_assoc in Q. change root_key with (lit "$Root" ++ [36]) in Q. apply app_inj_tail in Q as [_ Q]. discriminate.
  - apply idx_end_inj in Q as ->. destruct (P2 _ _ EP) as [[_ [ch X]] _]. eapply NV; eauto.
  - eapply under_bracket; [exact N'|]. symmetry. exact Q.
Qed.

Lemma pres_bindq : forall A B (Q : A -> Prop) (p : P A) (f : A -> P B), pres stays p -> (forall s i s' r a, p s i = Ok (s', Done r a) -> Q a) ->
  (forall a, Q a -> pres stays (f a)) -> pres stays (bind p f).
Proof.
  intros A B Q p f H HQ H2 s i s' r E1. unfold bind in E1. apply rbind_ok in E1 as ([s1 r1] & E2 & E1).
  pose proof (H _ _ _ _ E2) as X. destruct r1; [|inversion E1; subst; auto..]. apply HQ in E2. apply (H2 _ E2) in E1. eapply stays_trans; eauto.
Qed.
Lemma subkey_name : forall s i s' r a, table_subkey s i = Ok (s', Done r a) -> name_text (wk_key a).
Proof.
  intros s i s' r a H. unfold table_subkey in H. apply bind_done in H as (s1 & i1 & x & _ & H). apply bind_done in H as (s2 & i2 & y & _ & H).
  apply bind_done in H as (s3 & i3 & z & _ & H). apply bind_done in H as (s4 & i4 & k & K & H). apply key_text in K as [_ K]. inversion H; subst. exact K.
Qed.
Lemma subkeys_names : forall s i s' r l, table_subkeys s i = Ok (s', Done r l) -> Forall name_text (map wk_key l).
Proof.
  intros s i s' r l H. unfold table_subkeys, many0 in H. apply (loop_all _ _ (fun a => name_text (wk_key a)) subkey_name) in H. rewrite Forall_map. exact H.
Qed.
Lemma stays_refl : forall s, stays s s.
Proof. intros s H. split; auto. apply gentle_refl. Qed.
Lemma stays_key : pres stays key_p.
Proof. apply pres_key; intros; try apply stays_refl; try (eapply stays_trans; eassumption); apply stays_same; reflexivity. Qed.
Lemma stays_pure : forall A (p : P A), pure p -> pres stays p.
Proof. intros A p H s i s' r X. apply pure_state with (1 := H) in X. subst. apply stays_refl. Qed.
Lemma stays_subkeys : pres stays table_subkeys.
Proof.
  unfold table_subkeys. apply pres_many0; [exact stays_refl|exact stays_trans|]. unfold table_subkey.
  apply pres_bind; [exact stays_trans|apply stays_pure; unfold ws; pure_tac|]. intros w.
  apply pres_bind; [exact stays_trans|apply stays_pure; pure_tac|]. intros x.
  apply pres_bind; [exact stays_trans|apply stays_pure; unfold ws; pure_tac|]. intros y.
  apply pres_bind; [exact stays_trans|apply stays_key|]. intros z. apply pres_ret, stays_refl.
Qed.
Lemma stays_table : pres stays table_p.
Proof.
  unfold table_p. apply pres_alt; [exact stays_trans|apply pres_complete|apply pres_complete].
  - unfold array_table. apply pres_bind; [exact stays_trans|apply stays_pure; pure_tac|]. intros x.
    apply pres_bind; [exact stays_trans|apply stays_pure; unfold ws; pure_tac|]. intros w1.
    apply (pres_bindq _ _ name_text); [apply stays_key|intros s i s' r a H; apply key_text in H; tauto|]. intros k NK.
    apply (pres_bindq _ _ (fun l => Forall name_text (map wk_key l))); [apply stays_subkeys|exact subkeys_names|]. intros l NL.
    apply pres_bind; [exact stays_trans|apply stays_pure; unfold ws; pure_tac|]. intros w2.
    apply pres_bind; [exact stays_trans|apply stays_pure; pure_tac|]. intros y.
    apply pres_act. intros s s' a H. eapply stays_arr; eauto.
  - unfold std_table. apply pres_bind; [exact stays_trans|apply stays_pure; pure_tac|]. intros x.
    apply pres_bind; [exact stays_trans|apply stays_pure; unfold ws; pure_tac|]. intros w1.
    apply (pres_bindq _ _ name_text); [apply stays_key|intros s i s' r a H; apply key_text in H; tauto|]. intros k NK.
    apply (pres_bindq _ _ (fun l => Forall name_text (map wk_key l))); [apply stays_subkeys|exact subkeys_names|]. intros l NL.
    apply pres_bind; [exact stays_trans|apply stays_pure; unfold ws; pure_tac|]. intros w2.
    apply pres_bind; [exact stays_trans|apply stays_pure; pure_tac|]. intros y.
    apply pres_act. intros s s' a H. eapply stays_std; eauto.
Qed.
Lemma stays_keyval : pres stays keyval_p.
Proof.
  apply pres_keyval_p; try exact stays_trans; try exact stays_insert; intros; try apply stays_refl; apply stays_same; reflexivity.
Qed.
Lemma stays_expression : pres stays expression_p.
Proof.
  unfold expression_p, table_comment, keyval_comment, ws_comment, ws_expr, comment, ws.
  repeat (match goal with
    | |- forall _, _ => intro
    | |- pres _ table_p => apply stays_table
    | |- pres _ keyval_p => apply stays_keyval
    | |- pres _ (bind _ _) => apply pres_bind; [exact stays_trans| |]
    | |- pres _ (alt _ _) => apply pres_alt; [exact stays_trans| |]
    | |- pres _ (opt _) => apply pres_opt
    | |- pres _ (complete _) => apply pres_complete
    | |- pres _ (ret _) => apply pres_ret; exact stays_refl
    | |- pres _ _ => apply stays_pure; pure_tac
    end).
Qed.
Lemma stays_loop : forall n s i s' r, many_loop n nl_expression_p s i = Ok (s', r) -> stays s s'.
Proof.
  intros n s i s' r H. revert H. apply (pres_loop stays); [exact stays_refl|exact stays_trans|].
  apply loop_pres; [exact stays_refl|exact stays_trans|intros; apply stays_same; reflexivity|exact stays_expression].
Qed.
End Prot.

(** ** The entries of a document *)
Definition held_in (g : list hline) (cs : list cell) (k : str) (o : option cell) : Prop :=
  (o = None /\ exists q, reached g q /\ k = dpar q) \/
  (exists c x r y, In (c, x) (combine cs (entries g)) /\ tat c r = Some y /\ o = Some y /\
     k = dotted_name (fst (fst x) ++ [snd (fst x)]) ++ path_text r).

Lemma f2_in_l : forall A B (R : A -> B -> Prop) l l' x y, Forall2 R l l' -> In (x, y) (combine l l') -> R x y /\ In y l'.
Proof.
  intros A B R l l' x y H. induction H as [|a b l l' H F IH]; cbn [combine In]; [tauto|]. intros [I|I]; [inversion I; subst; auto|].
  apply IH in I. tauto.
Qed.
Lemma f2_in_r : forall A B (R : A -> B -> Prop) l l' y, Forall2 R l l' -> In y l' -> exists x, In (x, y) (combine l l').
Proof.
  intros A B R l l' y H. induction H as [|a b l l' H F IH]; cbn [combine In]; [tauto|]. intros [->|I]; [exists a; auto|].
  destruct (IH I) as [x X]. eauto.
Qed.
Lemma tat_snoc : forall r c x y, tat c (r ++ [x]) = Some y -> exists z, tat c r = Some z /\ tat z [x] = Some y.
Proof.
  induction r as [|a r IH]; intros c x y H; [exists c; auto|]. cbn [app] in H. destruct a as [i|k]; cbn [tat] in H |- *.
  - destruct (c_val c); try discriminate H. destruct (nth_error values (N.to_nat i)); [|discriminate H]. apply IH; auto.
  - destruct (c_val c); try discriminate H. match type of H with match ?f with _ => _ end = _ => destruct f as [kv|] eqn:Q end; [|discriminate H]. apply IH; auto.
Qed.
Lemma path_snoc : forall r x, path_text (r ++ [x]) = path_text r ++ step_text x.
Proof. intros r x. unfold path_text. rewrite map_app, concat_app. cbn [map concat]. rewrite app_nil_r. auto. Qed.
Lemma key_name_text : forall k, key_name k -> name_text k.
Proof. intros k [H|(x & _ & H)]; [left; auto|right; eauto]. Qed.
Lemma keys_names : forall l, Forall key_name l -> Forall name_text l.
Proof. intros l H. eapply Forall_impl; [|exact H]. exact key_name_text. Qed.
Lemma name_path_root : forall p k r, name_text k -> good_path r -> dotted_name (p ++ [k]) ++ path_text r <> root_key.
Proof.
  intros p k r N G. destruct r as [|x r] using rev_ind.
  - cbn. rewrite app_nil_r, dotted_snoc. apply name_not_root; auto.
  - clear IHr. rewrite path_snoc. apply Forall_app in G as [_ G]. inversion G as [|? ? X _]; subst. destruct x as [i|n]; cbn [step_text].
    + rewrite !app_assoc. intros Q. change root_key with (lit "$Root" ++ [36]) in Q. apply app_inj_tail in Q as [_ Q]. discriminate.
    + rewrite !app_assoc. apply name_not_root. apply key_name_text. exact X.
Qed.
Lemma under_dpar : forall q n, Forall name_text q -> under (dpar q) n = dotted_name (q ++ [n]).
Proof.
  intros q n F. rewrite dotted_snoc, under_pre. f_equal. unfold upre. destruct q as [|a q]; [reflexivity|].
  cbn [dpar dpre]. destruct (str_eqb_spec (dotted_name (a :: q)) root_key) as [Q|Q]; [|reflexivity]. exfalso. revert Q.
  destruct (@exists_last _ (a :: q)) as (q' & n' & QE); [discriminate|]. rewrite QE in *. apply Forall_app in F as [_ F]. inversion F; subst.
  rewrite dotted_snoc. apply name_not_root; auto.
Qed.

Lemma held_prot : forall g cs m, hbare g -> hmap g cs m -> prot (held_in g cs) m.
Proof.
  intros g cs m B MI k o [[-> (q & R & ->)]|(c & x & r & y & I & TA & -> & ->)].
  - destruct (hm_tab _ _ _ MI q R) as (pv & D & _). unfold dent in D. split; [exists pv; eauto|].
    destruct q as [|n q] using rev_ind; [left; reflexivity|clear IHq]. right. right. destruct R as [R|R]; [destruct q; discriminate|].
    assert (RQ : reached g q). { right. eapply table_of_front; eauto. }
    assert (NA : Forall name_text (q ++ [n])) by (apply keys_names, (bare_reached g); auto; right; auto).
    apply Forall_app in NA as [NQ NN]. inversion NN as [|? ? NN' _]; subst.
    destruct (hm_tab _ _ _ MI q RQ) as (pv' & D' & _). exists (dpar q), n, None, pv', (table_keys q g). split; auto.
    split; [rewrite under_dpar, dpar_dotted; auto; destruct q; discriminate|]. split; [left; eauto|]. split; [exact D'|].
    apply table_keys_in, named_iff. auto.
  - pose proof (f2_in_l _ _ _ _ _ _ _ (hm_cells _ _ _ MI) I) as [[TV HG] IE]. destruct (HG _ _ TA) as [GP H]. destruct x as [[p n] v]. cbn [fst snd] in *.
    pose proof (entries_reached _ _ _ _ IE) as RP.
    assert (NP : Forall name_text p) by (apply keys_names, (bare_reached g); auto).
    assert (NN : name_text n) by (pose proof (keys_names _ (bare_entry _ _ _ _ B IE)) as X; apply Forall_app in X as [_ X]; inversion X; auto).
    split.
    + split; [|unfold held in H; eauto]. pose proof (tat_at r c v TV) as X. destruct (at_path v r) as [w|]; [|congruence].
      destruct X as (y' & Y & V). assert (y' = y) as -> by congruence. intros Q. rewrite Q in V. discriminate V.
    + right. destruct r as [|st r] using rev_ind.
      * right. destruct (hm_tab _ _ _ MI p RP) as (pv' & D' & _).
        exists (dpar p), n, None, pv', (table_keys p g). split; auto. split; [cbn; rewrite app_nil_r, under_dpar; auto|].
        split; [left; eauto|]. split; [exact D'|]. apply table_keys_in, named_iff. eauto.
      * clear IHr. apply tat_snoc in TA as (z & TZ & TS). apply Forall_app in GP as [GP GS]. destruct (HG _ _ TZ) as [_ HZ].
        assert (EZ : held_in g cs (dotted_name (p ++ [n]) ++ path_text r) (Some z)).
        { right. exists c, (p, n, v), r, z. auto. }
        rewrite path_snoc. destruct st as [i|k]; cbn [step_text].
        -- left. exists (dotted_name (p ++ [n]) ++ path_text r), i, z. split; [rewrite <- app_assoc; reflexivity|exact EZ].
        -- right. inversion GS as [|? ? KN _]; subst. unfold held in HZ. cbn [tat] in TS. destruct (c_val z) as [| | | | | |kvs ws|] eqn:CZ; try discriminate TS.
           match type of TS with match ?f with _ => _ end = _ => destruct f as [kv|] eqn:Q end; [|discriminate TS]. cbn [tkids] in HZ.
           exists (dotted_name (p ++ [n]) ++ path_text r), k, (Some z), (Some z), (map (fun tk => kv_key (tk_kv tk)) kvs).
           split; [apply key_name_text; auto|]. split; [|split; [exact EZ|split; [exact HZ|]]].
           ++ unfold under. destruct (str_eqb_spec (dotted_name (p ++ [n]) ++ path_text r) root_key) as [X|X]; [exfalso; revert X; apply name_path_root; auto|].
              rewrite <- app_assoc. reflexivity.
           ++ apply find_some in Q as [Q1 Q2]. apply same_key_eq in Q2. apply in_map_iff. exists kv. auto.
Qed.

Theorem after_parse : forall ovf ls g fs b z, wdoc_ok ls -> faulty ls g fs b -> line_start z ->
  forall s r, parse (new_parser ovf) (hdoc_text ls ++ z) = Ok (s, r) ->
  (forall p k v y w, In (p, k, v) (entries g) -> good_path y -> at_path v y = Some w ->
     get_value s (dotted_name (p ++ [k]) ++ path_text y) = Ok (Some w)) /\
  (forall q, table_of g q -> q <> [] -> exists l, get_children s (dotted_name q) = Some (Keys l) /\ incl (table_keys q g) l) /\
  (exists l, get_children s [] = Some (Keys l) /\ incl (table_keys [] g) l) /\
  (forall i f, nth_error fs i = Some f -> exists e e', reported f e /\ still e e' /\ nth_error s.(p_errors) i = Some e').
Proof.
  intros ovf ls g fs b z OK FA LS s r PA.
  destruct (faulty_run ovf ls g fs b FA (or_intror OK) z (or_intror LS)) as (s0 & cs & RU & FI & _).
  destruct (parse_inv _ _ _ _ PA) as (s1 & rest & t & T & _ & -> & _). clear PA.
  assert (NL : ls <> []) by (intros ->; destruct OK).
  destruct (runs_after _ _ _ _ _ _ _ NL RU T) as (nn & es & M). clear T.
  assert (OG : Forall wline_ok g) by (eapply faulty_ok; eauto; apply wdoc_lines; auto).
  pose proof (wok_bare _ OG) as BG. pose proof (fv_map _ _ _ _ _ FI) as MI.
  assert (PI : pinv (held_in g cs) s0).
  { assert (TT : (p_tables s0 = [] /\ p_tindex s0 = []) \/ exists t, p_tables s0 = [TStandard t] /\ p_tindex s0 = [0]).
    { apply (hp_tables _ _ _ _ (finv_pre _ _ _ _ _ FI)). }
    constructor; [| |apply held_prot; auto].
    - unfold even. destruct TT as [[-> ->]|(t0 & -> & ->)]; auto.
    - destruct TT as [[-> _]|(t0 & -> & _)]; [apply stk_arr; constructor|apply (stk_std [] t0); constructor]. }
  destruct (stays_loop (held_in g cs) _ _ _ _ _ M PI) as [PI1 GE].
  pose proof (pi_prot _ _ PI1) as PR.
  split; [|split; [|split]].
  - intros p k v y w I GP AT. destruct (f2_in_r _ _ _ _ _ _ (hm_cells _ _ _ MI) I) as [c IC].
    pose proof (f2_in_l _ _ _ _ _ _ _ (hm_cells _ _ _ MI) IC) as [[TV _] _]. cbn [fst snd] in *.
    pose proof (tat_at y c v TV) as X. rewrite AT in X. destruct X as (yc & TA & TW).
    destruct (PR (dotted_name (p ++ [k]) ++ path_text y) (Some yc)) as [[_ [ch H]] _]; [right; exists c, (p, k, v), y, yc; auto|].
    unfold get_value. cbn [p_map set_leftover set_root]. rewrite H. cbn [hv_value]. rewrite TW. reflexivity.
  - intros q TQ N. destruct (hm_tab _ _ _ MI q (or_intror TQ)) as (pv & D & _). unfold dent in D.
    destruct (GE (dpar q) None _ _ (or_introl (conj eq_refl (ex_intro _ q (conj (or_intror TQ) eq_refl)))) D) as (v' & sub' & H & _ & K).
    destruct (K _ eq_refl) as (l & -> & IN). exists l. split; auto. rewrite dpar_dotted in H by auto. unfold get_children.
    cbn [p_map set_leftover set_root].
    assert (NE : dotted_name q <> []) by (apply dotted_ne; auto; eapply bare_table_of; eauto). destruct (dotted_name q) as [|a x]; [congruence|].
    rewrite H. reflexivity.
  - destruct (hm_tab _ _ _ MI [] (or_introl eq_refl)) as (pv & D & _). unfold dent in D.
    destruct (GE (dpar []) None _ _ (or_introl (conj eq_refl (ex_intro _ [] (conj (or_introl eq_refl) eq_refl)))) D) as (v' & sub' & H & _ & K).
    destruct (K _ eq_refl) as (l & -> & IN). exists l. split; auto. unfold get_children. cbn [p_map set_leftover set_root]. cbn [dpar] in H. rewrite H. reflexivity.
  - intros i f NF. assert (G : errors_grow s0 s1).
    { revert M. apply (pres_loop errors_grow); [exact DocFacts.grow_refl|exact grow_trans|].
      apply loop_pres; [exact DocFacts.grow_refl|exact grow_trans|intros; apply grow_same; reflexivity|exact grow_expression]. }
    destruct G as (aa & bb & E1 & K). cbn [p_errors set_leftover set_root]. rewrite E1. clear E1.
    revert i f NF. pose proof (fv_errors _ _ _ _ _ FI) as RE. clear FI FA. revert aa K. induction RE as [|f0 e0 fs' es' R0 RE IH]; intros aa K i f NF.
    + destruct i; discriminate.
    + inversion K as [|? e1 ? ? KE KN]; subst. destruct i as [|i]; cbn [nth_error app] in *.
      * inversion NF; subst f0. exists e0, e1. split; auto. split; auto. destruct KE as [->|KE]; [left; auto|right; exact KE].
      * eauto.
Qed.
