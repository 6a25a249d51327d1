(** Documents with nested arrays of tables: the stack of open tables. *)
From Coq Require Import Lia ZifyBool ZifyNat ZifyN.
From Verif Require Import Str Regex Types Ast State Nom Keys Grammar Api Facts Spec.
From Verif Require Import RegexFacts NomFacts TypesFacts DateFacts NumFacts StringFacts ScalarFacts.
From Verif Require Import LineFacts FlatFacts RoundTrip WalkFacts IdFacts WriteFacts ApiSpec ApiFacts DocSpec PathFacts NestFacts SectFacts LookFacts DotSpec DotFacts TreeSpec TreeView.

(** ** The names of headers as text *)
Lemma starts_iff : forall p s, starts_with p s = true <-> exists r, s = p ++ r.
Proof.
  induction p as [|x p IH]; intros s; cbn [starts_with].
  - split; [intros _; exists s; reflexivity|auto].
  - destruct s as [|y s]; [split; [discriminate|intros [r E]; discriminate E]|]. rewrite andb_true_iff, N.eqb_eq, IH. split.
    + intros [-> [r ->]]. exists r. auto.
    + intros [r E]. inversion E; subst. split; eauto.
Qed.
Lemma format_dotted : forall t, format_keys t = dotted_name (map wk_key t).
Proof. induction t as [|k [|k2 t] IH]; auto. change (format_keys (k :: k2 :: t)) with (wk_key k ++ lit "." ++ format_keys (k2 :: t)). rewrite IH. reflexivity. Qed.

Lemma dotted_cons : forall f x, x <> [] -> dotted_name (f :: x) = f ++ lit "." ++ dotted_name x.
Proof. intros f [|y x] N; [congruence|reflexivity]. Qed.
(** a name that continues before a dot *)
Lemma bare_dot : forall a b x y, key_name a -> key_name b -> a ++ lit "." ++ x = b ++ lit "." ++ y -> a = b /\ x = y.
Proof.
  intros a b x y A B E. apply bare_split in E as [-> E]; auto; try (simpl; auto; fail). apply app_inv_head in E. auto.
Qed.
Lemma bare_nodot : forall a b x, key_name a -> key_name b -> a <> b ++ lit "." ++ x.
Proof.
  intros a b x A B E. rewrite <- (app_nil_r a) in E. apply bare_split in E as [_ E]; auto; try (simpl; auto; fail). discriminate E.
Qed.
(** what lies on the stack above the parent of a header is not taken for its parent *)
Lemma not_inside : forall p f y t, Forall key_name (p ++ f :: y) -> key_name t -> (y = [] -> forall r, t <> f ++ r) ->
  starts_with (dotted_name (p ++ f :: y)) (dotted_name (p ++ [t])) = false.
Proof.
  intros p f y t F B H. apply not_true_iff_false. intros S. apply starts_iff in S as [r E].
  induction p as [|a p IH]; cbn [app] in *.
  - inversion F; subst. destruct y as [|z y]; [apply (H eq_refl r); auto|]. rewrite (dotted_cons f (z :: y)) in E by discriminate.
    change (dotted_name [t]) with t in E. rewrite <- !app_assoc in E. apply bare_nodot in E; auto.
  - inversion F; subst. rewrite !dotted_cons in E by (destruct p; discriminate).
    rewrite <- !app_assoc in E. apply bare_dot in E as [_ E]; auto.
Qed.
Lemma starts_snoc : forall o t, starts_with (dotted_name o) (dotted_name (o ++ [t])) = true.
Proof.
  intros o t. apply starts_iff. rewrite dotted_snoc. destruct o as [|a o]; [exists t; auto|]. exists (lit "." ++ t). unfold dpre. rewrite <- app_assoc. auto.
Qed.
Lemma starts_longer : forall h x, Forall key_name (h ++ x) -> x <> [] -> h <> [] -> starts_with (dotted_name (h ++ x)) (dotted_name h) = false.
Proof.
  intros h x F N M. apply not_true_iff_false. intros S. apply starts_iff in S as [r E].
  induction h as [|a h IH]; [congruence|]. cbn [app] in *. inversion F; subst.
  rewrite (dotted_cons a (h ++ x)) in E by (destruct h; destruct x; discriminate || congruence).
  destruct h as [|b h].
  - change (dotted_name [a]) with a in E. rewrite <- !app_assoc in E. apply bare_nodot in E; auto.
  - rewrite dotted_cons in E by discriminate. rewrite <- !app_assoc in E. apply bare_dot in E as [_ E]; auto. apply IH; auto. discriminate.
Qed.

(** ** The stack *)
Definition sgood (st : stack) : Prop := Forall (fun x => key_name (fst x)) st.
Lemma sgood_app : forall a b, sgood (a ++ b) <-> sgood a /\ sgood b.
Proof. intros. apply Forall_app. Qed.
Lemma sgood_names : forall st, sgood st <-> Forall key_name (map fst st).
Proof. intros. unfold sgood. rewrite Forall_map. tauto. Qed.
Lemma sp_good : forall st, sgood st -> gplace (sp st).
Proof.
  induction st as [|[n i] st IH] using rev_ind; intros G; [split; [apply Forall_nil|exact I]|].
  apply sgood_app in G as [G B]. inversion B; subst. rewrite sp_snoc. apply gplace_idx; [|apply snoc_place]. apply gplace_key; auto.
Qed.
Lemma sp_ne : forall st, st <> [] -> sp st <> [].
Proof. intros [|[n i] st] N; [congruence|discriminate]. Qed.

Inductive stackof : stack -> list table_type -> Prop :=
| SO_nil : stackof [] []
| SO_snoc : forall st ts n i tb, stackof st ts -> map wk_key tb = map fst st ++ [n] -> stackof (st ++ [(n, i)]) (ts ++ [TArrayOf tb]).
Lemma snoc_inv : forall A (l : list A), l = [] \/ exists x y, l = x ++ [y].
Proof. intros A l. destruct l as [|y x] using rev_ind; eauto. Qed.
Lemma so_snoc_inv : forall st x ts, stackof (st ++ [x]) ts -> exists ts0 tb, ts = ts0 ++ [TArrayOf tb] /\ stackof st ts0 /\ map wk_key tb = map fst st ++ [fst x].
Proof.
  intros st x ts H. inversion H as [E|st' ts' n i tb S M E]; [destruct st; discriminate E|].
  apply app_inj_tail in E as [-> <-]. exists ts', tb. auto.
Qed.
Lemma so_nil_inv : forall ts, stackof [] ts -> ts = [].
Proof. intros ts H. inversion H as [E|st' ts' n i tb S M E]; auto. destruct st'; discriminate E. Qed.
Lemma so_names : forall a ts, stackof a ts -> forall b, map fst b = map fst a -> stackof b ts.
Proof.
  intros a ts H. induction H as [|st ts n i tb S IH M]; intros b E.
  - destruct b; [apply SO_nil|discriminate E].
  - destruct (snoc_inv _ b) as [->|(b' & [n' i'] & ->)]; [rewrite map_app in E; destruct (map fst st); discriminate E|].
    rewrite !map_app in E. cbn [map fst] in E. apply app_inj_tail in E as [E1 ->]. apply SO_snoc; auto. rewrite M, E1. auto.
Qed.
Lemma names_length : forall (a b : stack), map fst a = map fst b -> length (map snd a) = length b.
Proof. intros a b E. rewrite map_length, <- (map_length fst a), E. apply map_length. Qed.
Lemma so_length : forall st ts, stackof st ts -> length ts = length st.
Proof. intros st ts H. induction H; auto. rewrite !app_length. cbn [length]. lia. Qed.
Lemma so_nth : forall st ts, stackof st ts -> forall a n i b r, st = a ++ (n, i) :: b ->
  exists tb, nth_error (ts ++ r) (length a) = Some (TArrayOf tb) /\ map wk_key tb = map fst a ++ [n].
Proof.
  intros st ts H. induction H as [|st ts n' i' tb S IH M]; intros a n i b r E; [destruct a; discriminate E|].
  destruct (snoc_inv _ b) as [->|(b' & z & ->)].
  - apply app_inj_tail in E as [-> E]. inversion E; subst. exists tb. split; auto.
    rewrite <- (so_length _ _ S), <- app_assoc, nth_error_app2, Nat.sub_diag by lia. reflexivity.
  - rewrite app_comm_cons, app_assoc in E. apply app_inj_tail in E as [-> _]. destruct (IH a n i b' ([TArrayOf tb] ++ r) eq_refl) as (tb' & X & Y).
    exists tb'. rewrite <- app_assoc. auto.
Qed.
Lemma so_front : forall a b ts, stackof (a ++ b) ts -> exists ta tb, ts = ta ++ tb /\ stackof a ta /\ length tb = length b.
Proof.
  intros a b. induction b as [|x b IH] using rev_ind; intros ts H.
  - rewrite app_nil_r in H. exists ts, []. rewrite app_nil_r. auto.
  - rewrite app_assoc in H. apply so_snoc_inv in H as (ts0 & tb & -> & S & _). destruct (IH _ S) as (ta & t2 & -> & S2 & L).
    exists ta, (t2 ++ [TArrayOf tb]). split; [rewrite app_assoc; auto|]. split; auto. rewrite !app_length. cbn [length]. lia.
Qed.

Definition aplace_of (st : stack) (n : str) : str := pdot (sp st) ++ n.
Lemma aplace_pt : forall st n, sgood st -> aplace_of st n = pt (sp st ++ [PKey n]).
Proof. intros. unfold aplace_of. rewrite pt_key; auto. apply sp_good; auto. Qed.
Lemma pdot_snoc : forall st n i, sgood st -> key_name n -> pdot (sp (st ++ [(n, i)])) = aplace_of st n ++ idx_str i ++ lit ".".
Proof.
  intros st n i G B. pose proof (sp_good _ G) as GP. rewrite aplace_pt by auto. unfold pdot. destruct (sp (st ++ [(n, i)])) eqn:E.
  { exfalso. apply (sp_ne (st ++ [(n, i)])); auto. destruct st; discriminate. }
  rewrite <- E, sp_snoc, pt_idx, <- app_assoc; auto using snoc_place, gplace_key.
Qed.
Lemma pt_snoc : forall st n i, sgood st -> key_name n -> pt (sp (st ++ [(n, i)])) = aplace_of st n ++ idx_str i.
Proof.
  intros st n i G B. pose proof (sp_good _ G) as GP. rewrite aplace_pt by auto. rewrite sp_snoc, pt_idx; auto using snoc_place, gplace_key.
Qed.

(** ** The key of the current table *)
Definition pend (st : stack) : nat := match st with [] => 0%nat | _ => S (length st) end.
Definition arrs (m : vmap) (st : stack) : Prop := forall a n i b, st = a ++ (n, i) :: b ->
  hget (aplace_of a n) m = Some (HashValue None (Count (i + 1))).
Definition rooted (m : vmap) : Prop := exists pv l, hget root_key m = Some (HashValue pv (Keys l)).
Lemma arrs_front : forall m a b, arrs m (a ++ b) -> arrs m a.
Proof. intros m a b H st1 n i st2 ->. apply (H st1 n i (st2 ++ b)). rewrite <- app_assoc. reflexivity. Qed.

Lemma skip_keys : forall (st : stack) n tb, map wk_key tb = map fst st ++ [n] ->
  skipn (pend st) (get_last_keys tb) = match st with [] => [root_key; n] | _ => [n] end.
Proof.
  intros st n tb M. unfold get_last_keys. rewrite M. destruct st as [|x st]; [reflexivity|].
  change (pend (x :: st)) with (S (length (x :: st))). change (skipn (S (length (x :: st))) (root_key :: map fst (x :: st) ++ [n])) with
    (skipn (length (x :: st)) (map fst (x :: st) ++ [n])).
  rewrite skipn_app, map_length, Nat.sub_diag. rewrite skipn_all2 by (rewrite map_length; auto). reflexivity.
Qed.
Lemma last_keys_snoc : forall (st : stack) n tb, map wk_key tb = map fst st ++ [n] -> last (get_last_keys tb) [] = n /\
  length (get_last_keys tb) = S (S (length st)).
Proof.
  intros st n tb M. unfold get_last_keys. rewrite M. rewrite app_comm_cons, last_last, app_length. cbn [length]. rewrite map_length. split; auto. lia.
Qed.
Lemma gatk_arr_snoc : forall m st n, rooted m ->
  gatk_arr m (match st with [] => [root_key; n] | _ => [n] end) (pdot (sp st)) = Ok (pdot (sp st)).
Proof.
  intros m st n (pv & l & R). destruct st as [|x st]; [|reflexivity].
  cbn [sp flat_map pdot gatk_arr]. change ([] ++ root_key) with root_key. rewrite R. cbn [hv_subkeys].
  rewrite orb_true_r, str_eqb_refl. reflexivity.
Qed.
Lemma gatk_arrs : forall ovf m b a ts rest ti k pk, stackof (a ++ b) ts -> (length (a ++ b) < length ti)%nat -> rooted m -> sgood (a ++ b) -> arrs m (a ++ b) ->
  gatk_loop ovf m (ts ++ rest) ti (length b + k) (length a) (pend a) true (pdot (sp a)) pk =
  gatk_loop ovf m (ts ++ rest) ti k (length (a ++ b)) (pend (a ++ b)) true (pdot (sp (a ++ b))) pk.
Proof.
  intros ovf m b. induction b as [|[n i] b IH]; intros a ts rest ti k pk SO L R G A; [rewrite app_nil_r; reflexivity|].
  cbn [length]. change (S (length b) + k)%nat with (S (length b + k)). cbn [gatk_loop].
  destruct (so_nth _ _ SO a n i b rest eq_refl) as (tb & T & M). unfold vindex at 1. rewrite T. cbn [rbind].
  rewrite (skip_keys _ _ _ M), gatk_arr_snoc by auto. cbn [rbind]. destruct (last_keys_snoc _ _ _ M) as [LK LL]. rewrite LK, LL.
  change (pdot (sp a) ++ n) with (aplace_of a n). rewrite (A a n i b eq_refl). cbn [hv_value hv_subkeys].
  unfold dec_usize. assert (i + 1 =? 0 = false) as -> by lia. cbn [rbind]. replace (i + 1 - 1) with i by lia.
  rewrite app_length in L. cbn [length] in L. assert (Nat.ltb (length a) (length ti - 1) = true) as -> by (apply Nat.ltb_lt; lia).
  replace (a ++ (n, i) :: b) with ((a ++ [(n, i)]) ++ b) in * by (rewrite <- app_assoc; auto).
  apply sgood_app in G as G2. destruct G2 as [G2 _]. apply sgood_app in G2 as [GA GB]. apply Forall_inv in GB. cbn [fst] in GB.
  rewrite <- pdot_snoc by auto. rewrite <- (IH (a ++ [(n, i)]) ts rest ti k pk); auto.
  - rewrite app_length. cbn [length]. replace (pend (a ++ [(n, i)])) with (S (S (length a))).
    + f_equal. lia.
    + unfold pend. destruct (a ++ [(n, i)]) eqn:E; [destruct a; discriminate E|]. rewrite <- E, app_length. cbn [length]. lia.
  - rewrite !app_length. cbn [length]. lia.
Qed.

(** the last open array, new or not *)
Lemma gatk_top : forall ovf m st ts tb n ti j rest, stackof st ts -> map wk_key tb = map fst st ++ [n] -> length ti = S (length st) ->
  rooted m -> sgood st -> arrs m st ->
  (hget (aplace_of st n) m = Some (HashValue None (Count (j + 1))) \/ (hget (aplace_of st n) m = None /\ nth_error ti (length st) = Some j)) ->
  get_array_table_key ovf m (ts ++ TArrayOf tb :: rest) ti = Ok (true, aplace_of st n ++ idx_str j, aplace_of st n).
Proof.
  intros ovf m st ts tb n ti j rest SO M L R G A J. unfold get_array_table_key. replace (length ti) with (length st + 1)%nat by lia.
  pose proof (gatk_arrs ovf m st [] ts (TArrayOf tb :: rest) ti 1 root_key SO) as E. cbn [app length] in E.
  change (gatk_loop ovf m (ts ++ TArrayOf tb :: rest) ti (length st + 1) 0 (pend []) true (pdot (sp [])) root_key) with
    (gatk_loop ovf m (ts ++ TArrayOf tb :: rest) ti (length st + 1) 0 0 true [] root_key) in E.
  rewrite E by (auto; lia). clear E. cbn [gatk_loop].
  assert (NT : nth_error (ts ++ TArrayOf tb :: rest) (length st) = Some (TArrayOf tb)).
  { rewrite <- (so_length _ _ SO), nth_error_app2, Nat.sub_diag by lia. reflexivity. }
  unfold vindex at 1. rewrite NT. cbn [rbind]. rewrite (skip_keys _ _ _ M), gatk_arr_snoc by auto. cbn [rbind].
  destruct (last_keys_snoc _ _ _ M) as [LK LL]. rewrite LK. change (pdot (sp st) ++ n) with (aplace_of st n).
  assert (Nat.ltb (length st) (length ti - 1) = false) as -> by (apply Nat.ltb_ge; lia).
  destruct J as [J|[J1 J2]].
  - rewrite J. cbn [hv_value hv_subkeys]. unfold dec_usize. assert (j + 1 =? 0 = false) as -> by lia. cbn [rbind].
    replace (j + 1 - 1) with j by lia. reflexivity.
  - rewrite J1. unfold vindex. rewrite J2. reflexivity.
Qed.
(** a table in the last open array *)
Lemma gatk_tab : forall ovf m st ts tb t ti rest, stackof st ts -> map wk_key tb = map fst st ++ [t] -> length ti = S (length st) ->
  rooted m -> sgood st -> arrs m st ->
  get_array_table_key ovf m (ts ++ TStandard tb :: rest) ti = Ok (negb (key_has_value m (aplace_of st t)), aplace_of st t, root_key).
Proof.
  intros ovf m st ts tb t ti rest SO M L R G A. unfold get_array_table_key. replace (length ti) with (length st + 1)%nat by lia.
  pose proof (gatk_arrs ovf m st [] ts (TStandard tb :: rest) ti 1 root_key SO) as E. cbn [app length] in E.
  change (gatk_loop ovf m (ts ++ TStandard tb :: rest) ti (length st + 1) 0 (pend []) true (pdot (sp [])) root_key) with
    (gatk_loop ovf m (ts ++ TStandard tb :: rest) ti (length st + 1) 0 0 true [] root_key) in E.
  rewrite E by (auto; lia). clear E. cbn [gatk_loop].
  assert (NT : nth_error (ts ++ TStandard tb :: rest) (length st) = Some (TStandard tb)).
  { rewrite <- (so_length _ _ SO), nth_error_app2, Nat.sub_diag by lia. reflexivity. }
  unfold vindex at 1. rewrite NT. cbn [rbind]. rewrite (skip_keys _ _ _ M).
  assert (GS : gatk_std m (match st with [] => [root_key; t] | _ => [t] end) true (pdot (sp st)) root_key = (true, pdot (sp st), root_key)).
  { destruct st as [|x st]; [|reflexivity]. rewrite gatk_std_eq, str_eqb_refl. reflexivity. }
  rewrite GS. destruct (last_keys_snoc _ _ _ M) as [LK _]. rewrite LK. reflexivity.
Qed.
(** all open arrays *)
Lemma gatk_stack : forall ovf m st ts ti, stackof st ts -> length ti = length st -> rooted m -> sgood st -> arrs m st ->
  exists pk, get_array_table_key ovf m ts ti = Ok (true, pt (sp st), pk).
Proof.
  intros ovf m st ts ti SO L R G A. destruct (snoc_inv _ st) as [->|(st' & [n i] & ->)].
  - apply so_nil_inv in SO. subst ts. destruct ti; [|discriminate L]. exists root_key. reflexivity.
  - apply so_snoc_inv in SO as (ts0 & tb & -> & SO & M). apply sgood_app in G as [G B]. apply Forall_inv in B. cbn [fst] in B.
    rewrite app_length in L. cbn [length] in L. exists (aplace_of st' n). rewrite pt_snoc by auto. apply gatk_top; auto.
    + lia.
    + eapply arrs_front; eauto.
    + left. apply (A st' n i []). auto.
Qed.

(** ** The key of an open array *)
Lemma gkp_last : forall (st : stack) n tb kp, map wk_key tb = map fst st ++ [n] -> key_name n ->
  gkp_keys (skipn (pend st) (get_last_keys tb)) (length (get_last_keys tb)) (pend st) kp = kp ++ n.
Proof.
  intros st n tb kp M B. rewrite (skip_keys _ _ _ M). destruct (last_keys_snoc _ _ _ M) as [_ ->].
  assert (X : forall j kp, (S (length st) <= j)%nat -> gkp_keys [n] (S (S (length st))) j kp = kp ++ n).
  { intros j kp0 J. cbn [gkp_keys]. rewrite bare_not_root by auto.
    assert (Nat.ltb j (S (S (length st)) - 1) = false) as -> by (apply Nat.ltb_ge; lia). rewrite app_nil_r. auto. }
  destruct st as [|x st].
  - etransitivity; [|apply (X 1%nat kp); cbn [length]; lia]. reflexivity.
  - apply X. cbn [pend length]. lia.
Qed.
Definition pdot' (p : place) : str := match p with [] => [] | _ => pt p end.
Lemma gkp_arrs : forall b a ts rest ti k, stackof (a ++ b) ts -> (length (a ++ b) < length ti)%nat -> sgood (a ++ b) ->
  (forall j n i c, a ++ b = j ++ (n, i) :: c -> nth_error ti (length j) = Some i) ->
  gkp_loop (ts ++ rest) ti (length b + k) (length a) (pend a) (pdot' (sp a)) =
  gkp_loop (ts ++ rest) ti k (length (a ++ b)) (pend (a ++ b)) (pdot' (sp (a ++ b))).
Proof.
  induction b as [|[n i] b IH]; intros a ts rest ti k SO L G T; [rewrite app_nil_r; reflexivity|].
  cbn [length]. change (S (length b) + k)%nat with (S (length b + k)). cbn [gkp_loop].
  destruct (so_nth _ _ SO a n i b rest eq_refl) as (tb & NT & M). unfold vindex at 1. rewrite NT. cbn [rbind].
  pose proof (T a n i b eq_refl) as TI. unfold vindex. rewrite TI. cbn [rbind].
  rewrite app_length in L. cbn [length] in L. assert (Nat.ltb (length a) (length ti - 1) = true) as -> by (apply Nat.ltb_lt; lia).
  replace (a ++ (n, i) :: b) with ((a ++ [(n, i)]) ++ b) in * by (rewrite <- app_assoc; auto).
  apply sgood_app in G as G2. destruct G2 as [G2 _]. apply sgood_app in G2 as [GA GB]. apply Forall_inv in GB. cbn [fst] in GB.
  rewrite (gkp_last _ _ _ _ M) by auto. destruct (last_keys_snoc _ _ _ M) as [_ LL]. rewrite LL.
  assert (E : (match pdot' (sp a) with [] => [] | _ => pdot' (sp a) ++ lit "." end) = pdot (sp a)).
  { destruct (sp a) as [|x p] eqn:Q; [reflexivity|]. unfold pdot', pdot. destruct (pt (x :: p)) eqn:Z; auto.
    exfalso. apply (pt_ne (x :: p)); [discriminate| |auto]. rewrite <- Q. apply sp_good; auto. }
  rewrite E. change (pdot (sp a) ++ n) with (aplace_of a n).
  assert (E2 : aplace_of a n ++ idx_str i = pdot' (sp (a ++ [(n, i)]))).
  { rewrite <- pt_snoc by auto. unfold pdot'. destruct (sp (a ++ [(n, i)])) eqn:Z; auto. }
  rewrite E2. rewrite <- (IH (a ++ [(n, i)]) ts rest ti k); auto.
  - rewrite app_length. cbn [length]. replace (pend (a ++ [(n, i)])) with (S (S (length a))).
    + f_equal. lia.
    + unfold pend. destruct (a ++ [(n, i)]) eqn:Z; [destruct a; discriminate Z|]. rewrite <- Z, app_length. cbn [length]. lia.
  - rewrite !app_length. cbn [length]. lia.
Qed.
Lemma gkp_top : forall st ts tb n i ti, stackof st ts -> map wk_key tb = map fst st ++ [n] -> sgood st -> key_name n -> ti = map snd st ++ [i] ->
  get_key_parent (ts ++ [TArrayOf tb]) ti = Ok (aplace_of st n).
Proof.
  intros st ts tb n i ti SO M G B ->. unfold get_key_parent. rewrite app_length, map_length. cbn [length].
  pose proof (gkp_arrs st [] ts [TArrayOf tb] (map snd st ++ [i]) 1 SO) as E. cbn [app length] in E. change (pend []) with 0%nat in E. change (pdot' (sp [])) with (@nil N) in E. rewrite E; clear E; auto.
  - cbn [gkp_loop].
    assert (NT : nth_error (ts ++ [TArrayOf tb]) (length st) = Some (TArrayOf tb)).
    { rewrite <- (so_length _ _ SO), nth_error_app2, Nat.sub_diag by lia. reflexivity. }
    unfold vindex at 1. rewrite NT. cbn [rbind].
    assert (NI : nth_error (map snd st ++ [i]) (length st) = Some i).
    { rewrite nth_error_app2, map_length, Nat.sub_diag by (rewrite map_length; lia). reflexivity. }
    unfold vindex. rewrite NI. cbn [rbind]. rewrite app_length, map_length. cbn [length].
    assert (Nat.ltb (length st) (length st + 1 - 1) = false) as -> by (apply Nat.ltb_ge; lia).
    rewrite (gkp_last _ _ _ _ M) by auto. f_equal. unfold aplace_of. f_equal.
    destruct (sp st) as [|x p] eqn:Q; [reflexivity|]. unfold pdot', pdot. destruct (pt (x :: p)) eqn:Z; auto.
    exfalso. apply (pt_ne (x :: p)); [discriminate| |auto]. rewrite <- Q. apply sp_good; auto.
  - rewrite app_length, map_length. cbn [length]. lia.
  - intros j m k c Q. rewrite Q, map_app, <- app_assoc. cbn [map snd app].
    rewrite nth_error_app2, map_length, Nat.sub_diag by (rewrite map_length; lia). reflexivity.
Qed.

(** ** The name of a new table is entered *)
Lemma implicit_name : forall ovf m st ts ti t tb n pv ks, stackof st ts -> length ti = length st -> sgood st -> arrs m st -> rooted m ->
  tt_table t = tb -> map wk_key tb = map fst st ++ [n] -> hget (ppar (sp st)) m = Some (HashValue pv (Keys ks)) ->
  add_implicit_tables ovf m ts ti t = Ok (hput (ppar (sp st)) (HashValue pv (Keys (fst (vinsert ks n)))) m).
Proof.
  intros ovf m st ts ti t tb n pv ks SO LT0 G A R <- M P. unfold add_implicit_tables.
  destruct (gatk_stack ovf m st ts ti SO LT0 R G A) as [pk E]. rewrite E. cbn [rbind negb].
  assert (SK : exists w, skipn (length st) (tt_table t) = [w] /\ wk_key w = n).
  { assert (X : map wk_key (skipn (length st) (tt_table t)) = [n]).
    { rewrite <- skipn_map, M, skipn_app, map_length, Nat.sub_diag. rewrite skipn_all2 by (rewrite map_length; auto). reflexivity. }
    destruct (skipn (length st) (tt_table t)) as [|w [|w2 r]]; try discriminate X. exists w. split; auto. cbn [map] in X. congruence. }
  destruct SK as (w & SK & <-).
  assert (LOOP : ait_loop m [w] true (ppar (sp st)) = Ok (hput (ppar (sp st)) (HashValue pv (Keys (fst (vinsert ks (wk_key w))))) m)).
  { cbn [ait_loop]. rewrite P. cbn [hv_subkeys hv_value]. destruct (vinsert ks (wk_key w)) as [l' ins]. reflexivity. }
  destruct (snoc_inv _ st) as [->|(st' & [n' i] & ->)].
  - apply so_nil_inv in SO. subst ts. change (vlast (@nil table_type)) with (@None table_type). cbv iota beta.
    cbn [sp flat_map place_text app ppar] in *. rewrite str_eqb_refl. cbn [Nat.sub length] in *. rewrite SK. exact LOOP.
  - apply so_snoc_inv in SO as (ts0 & tb' & -> & SO & M'). rewrite vlast_app. cbv iota beta. cbn [tt_table].
    assert (LT : length tb' = length (st' ++ [(n', i)])).
    { rewrite <- (map_length wk_key), M'. rewrite !app_length, map_length. reflexivity. }
    assert (NR : str_eqb (pt (sp (st' ++ [(n', i)]))) root_key = false).
    { destruct (str_eqb (pt (sp (st' ++ [(n', i)]))) root_key) eqn:Q; auto. apply str_eqb_eq in Q. exfalso. revert Q. apply pt_root; [|apply sp_good; auto].
      apply sp_ne. destruct st'; discriminate. }
    rewrite NR, LT, SK. rewrite ppar_pt in LOOP by (apply sp_ne; destruct st'; discriminate). rewrite ppar_pt by (apply sp_ne; destruct st'; discriminate). exact LOOP.
Qed.

(** ** Closing tables *)
Lemma rev_snoc : forall A (l : list A) x, rev (l ++ [x]) = x :: rev l.
Proof. intros. rewrite rev_app_distr. reflexivity. Qed.
Lemma pop_key_stack : forall b a ts h, stackof (a ++ b) ts -> sgood (a ++ b) -> h <> [] -> Forall key_name h -> a <> [] -> map fst a = h ->
  exists ta, stackof a ta /\ pop_until_key (dotted_name h) (rev ts) (rev (map snd (a ++ b))) = (rev ta, rev (map snd a)).
Proof.
  induction b as [|[n i] b IH] using rev_ind; intros a ts h S G N F NA H.
  - rewrite app_nil_r in *. exists ts. split; auto. destruct (snoc_inv _ a) as [->|(a' & [n i] & ->)]; [congruence|].
    apply so_snoc_inv in S as (ts0 & tb & -> & S & M). cbn [fst] in M. rewrite rev_snoc. cbn [pop_until_key].
    unfold format_tt_keys. rewrite format_dotted. cbn [tt_table]. rewrite M. rewrite map_app in H. cbn [map fst] in H. rewrite <- H, str_eqb_refl. reflexivity.
  - rewrite app_assoc in *. apply so_snoc_inv in S as (ts0 & tb & -> & S & M). cbn [fst] in M. apply sgood_app in G as [G B]. apply Forall_inv in B. cbn [fst] in B.
    subst h. destruct (IH a ts0 (map fst a) S G N F NA eq_refl) as (ta & SA & E). exists ta. split; auto.
    rewrite rev_snoc, map_app. cbn [map snd]. rewrite rev_snoc. cbn [pop_until_key tl]. unfold format_tt_keys. rewrite format_dotted. cbn [tt_table]. rewrite M.
    assert (str_eqb (dotted_name (map fst a)) (dotted_name (map fst (a ++ b) ++ [n])) = false) as ->; auto.
    destruct (str_eqb_spec (dotted_name (map fst a)) (dotted_name (map fst (a ++ b) ++ [n]))) as [Q|]; auto. exfalso.
    apply dotted_inj in Q; auto.
    + apply (f_equal (@length str)) in Q. rewrite app_length, !map_length, app_length in Q. cbn [length] in Q. lia.
    + apply snoc_ne.
    + apply bare_app; [apply sgood_names; auto|constructor; auto].
Qed.
Lemma pop_key_none : forall st ts h, stackof st ts -> sgood st -> h <> [] -> Forall key_name h ->
  (forall a b, st = a ++ b -> map fst a <> h) -> pop_until_key (dotted_name h) (rev ts) (rev (map snd st)) = ([], []).
Proof.
  induction st as [|[n i] st IH] using rev_ind; intros ts h S G N F H.
  - apply so_nil_inv in S. subst ts. reflexivity.
  - apply so_snoc_inv in S as (ts0 & tb & -> & S & M). cbn [fst] in M. apply sgood_app in G as [G B]. apply Forall_inv in B. cbn [fst] in B.
    rewrite rev_snoc, map_app. cbn [map snd]. rewrite rev_snoc. cbn [pop_until_key tl]. unfold format_tt_keys. rewrite format_dotted. cbn [tt_table]. rewrite M.
    assert (str_eqb (dotted_name h) (dotted_name (map fst st ++ [n])) = false) as ->.
    { destruct (str_eqb_spec (dotted_name h) (dotted_name (map fst st ++ [n]))) as [Q|]; auto. exfalso.
      apply dotted_inj in Q; auto.
      + apply (H (st ++ [(n, i)]) []); [rewrite app_nil_r; auto|]. rewrite map_app. cbn [map fst]. auto.
      + apply snoc_ne.
      + apply bare_app; [apply sgood_names; auto|constructor; auto]. }
    apply IH; auto. intros a b -> Q. apply (H a (b ++ [(n, i)])); auto. rewrite app_assoc. auto.
Qed.
Lemma pop_sub_stack : forall b a ts tb t, stackof (a ++ b) ts -> sgood (a ++ b) -> key_name t -> b <> [] -> map wk_key tb = map fst a ++ [t] ->
  (forall f x r, map fst b = f :: x -> t <> f ++ r) ->
  exists ta, stackof a ta /\ pop_until_sub (TStandard tb) (rev ts) (rev (map snd (a ++ b))) = (rev ta, rev (map snd a)).
Proof.
  induction b as [|[n i] b IH] using rev_ind; intros a ts tb t S G B N M H; [congruence|]. rewrite app_assoc in *.
  apply so_snoc_inv in S as (ts0 & t0 & -> & S & M0). cbn [fst] in M0. apply sgood_app in G as [G BN]. apply Forall_inv in BN. cbn [fst] in BN.
  rewrite rev_snoc, map_app. cbn [map snd]. rewrite rev_snoc. cbn [pop_until_sub tl].
  destruct (snoc_inv _ b) as [->|(b' & [n' i'] & ->)].
  - rewrite app_nil_r in *. exists ts0. split; auto. destruct (snoc_inv _ a) as [->|(a' & [n' i'] & ->)].
    + apply so_nil_inv in S. subst ts0. reflexivity.
    + pose proof S as S'. apply so_snoc_inv in S as (ts1 & t1 & -> & S & M1). cbn [fst] in M1. rewrite rev_snoc.
      unfold is_subtable_of. cbn [tt_table]. rewrite !format_dotted, M, M1. rewrite map_app. cbn [map fst]. rewrite starts_snoc. reflexivity.
  - assert (NB : b' ++ [(n', i')] <> []) by (destruct b'; discriminate).
    destruct (IH a ts0 tb t S G B NB M) as (ta & SA & E).
    { intros f x r Q. rewrite map_app in H. rewrite Q in H. cbn [map fst app] in H. apply (H f (x ++ [n]) r). auto. }
    exists ta. split; auto. rewrite <- E. rewrite app_assoc in S. apply so_snoc_inv in S as (ts1 & t1 & -> & S & M1). cbn [fst] in M1. rewrite rev_snoc.
    unfold is_subtable_of at 1. cbn [tt_table]. rewrite !format_dotted, M, M1.
    destruct (map fst (b' ++ [(n', i')])) as [|f x] eqn:Q; [destruct b'; discriminate Q|].
    assert (X : map fst (a ++ b') ++ [n'] = map fst a ++ f :: x).
    { rewrite <- Q, !map_app, <- app_assoc. reflexivity. }
    rewrite X, not_inside; auto.
    + rewrite <- Q, <- map_app. apply sgood_names. auto.
    + intros -> r. eapply H. rewrite map_app, Q. reflexivity.
Qed.
