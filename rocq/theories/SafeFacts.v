(** Parsing does not panic on inputs whose table headers have one name: an
    invariant of the parser state that excludes every panic. *)
From Coq Require Import Lia ZifyBool ZifyNat ZifyN.
From Verif Require Import Str Regex Types Ast State Nom Keys Grammar Api Facts Spec RegexFacts NomFacts DateFacts RoundTrip Effects
  ParseFacts WalkFacts StringFacts LineFacts HeadSpec.

(** ** The invariant *)
Definition single (t : table_type) : Prop := length (tt_table t) = 1%nat.
Definition isarr (t : table_type) : Prop := match t with TArrayOf _ => True | _ => False end.
Definition isstd (t : table_type) : Prop := match t with TStandard _ => True | _ => False end.
(** the root entry has named children *)
Definition rooted (m : vmap) : Prop := exists v l, hget root_key m = Some (HashValue v (Keys l)).
(** arrays of tables, then standard tables *)
Definition ranked (ts : list table_type) : Prop := exists a b, ts = a ++ b /\ Forall isarr a /\ Forall isstd b.
Definition top_std (ts : list table_type) : Prop :=
  exists a b, ts = a ++ b /\ Forall isarr a /\ Forall isstd b /\ (length b <= 1)%nat.

Record tabs (ovf : bool) (ts : list table_type) (ti : list N) : Prop := {
  tb_len : length ti = length ts;
  tb_one : Forall single ts;
  tb_top : top_std ts;
  tb_ovf : ovf = true -> Forall isstd ts }.
Section Safe.
Variable o : bool.
Record G (n : nat) (s : pst) : Prop := {
  g_tabs : tabs s.(p_ovf) s.(p_tables) s.(p_tindex);
  g_root : rooted s.(p_map);
  g_err : s.(p_array_error) = true -> s.(p_errors) <> [];
  g_chain : (n <= length s.(p_keychain))%nat;
  g_ovf : s.(p_ovf) = o }.

Lemma g_le : forall n n' s, (n' <= n)%nat -> G n s -> G n' s.
Proof. intros n n' s L []. split; auto. lia. Qed.

(** ** The map *)
Lemma rooted_put : forall m k v sub, rooted m -> (k = root_key -> exists l, sub = Keys l) ->
  rooted (hput k (HashValue v sub) m).
Proof.
  intros m k v sub (v0 & l & E) H. unfold rooted. destruct (str_eqb root_key k) eqn:Q.
  - apply str_eqb_eq in Q. subst. destruct (H eq_refl) as [l' ->]. rewrite hget_hput_same. eauto.
  - rewrite hget_hput_other; eauto. intro X. subst. rewrite str_eqb_refl in Q. discriminate.
Qed.
(** an entry replaced by one of the same kind *)
Lemma rooted_same : forall m k hv v sub, rooted m -> hget k m = Some hv ->
  match hv.(hv_subkeys), sub with Keys _, Keys _ => True | Count _, _ => True | _, _ => False end ->
  rooted (hput k (HashValue v sub) m).
Proof.
  intros m k hv v sub R E H. apply rooted_put; auto. intros ->. destruct R as (v0 & l & R). rewrite R in E. inversion E; subst.
  simpl in H. destruct sub; [contradiction|eauto].
Qed.
Lemma rooted_new : forall m k hv, rooted m -> hget k m = None -> rooted (hput k hv m).
Proof.
  intros m k [v sub] R E. apply rooted_put; auto. intros ->. destruct R as (v0 & l & R). congruence.
Qed.

Lemma update_parent_ok : forall m pk kc, rooted m -> kc <> [] -> exists m', update_parent m pk kc = Ok m' /\ rooted m'.
Proof.
  intros m pk kc R K. unfold update_parent.
  assert (L : exists k, vlast kc = Some k).
  { destruct (exists_last K) as (l & x & ->). exists x. unfold vlast. destruct (l ++ [x]) eqn:E; [destruct l; discriminate|]. rewrite <- E.
    rewrite app_length. simpl. rewrite Nat.add_sub, nth_error_app2, Nat.sub_diag; auto. }
  destruct L as [k ->]. destruct (hget pk m) as [hv|] eqn:E.
  - destruct (hv_subkeys hv) eqn:S.
    + eexists. split; [reflexivity|]. eapply rooted_same; eauto. rewrite S. auto.
    + destruct k; eexists; (split; [reflexivity|auto]). eapply rooted_same; eauto. rewrite S. auto.
  - destruct k; eexists; (split; [reflexivity|]); apply rooted_new; auto.
Qed.

(** ** The key of a table *)
Lemma single_keys : forall t, single t -> exists k, get_last_keys (tt_table t) = [root_key; k].
Proof. intros t H. unfold single in H. destruct (tt_table t) as [|k [|]]; try discriminate. exists k.(wk_key). reflexivity. Qed.
Lemma vindex_ok : forall A (l : list A) i, (i < length l)%nat -> exists x, vindex l i = Ok x /\ nth_error l i = Some x.
Proof. intros A l i H. unfold vindex. destruct (nth_error l i) eqn:E; eauto. apply nth_error_None in E. lia. Qed.
Lemma ranked_after : forall ts i j t u, ranked ts -> nth_error ts i = Some (TStandard t) -> nth_error ts j = Some (TArrayOf u) ->
  (j < i)%nat.
Proof.
  intros ts i j t u (a & b & -> & A & B) I J. rewrite Forall_forall in A, B.
  destruct (Nat.lt_ge_cases i (length a)) as [X|X].
  { rewrite nth_error_app1 in I by auto. apply nth_error_In in I. apply A in I. contradiction. }
  destruct (Nat.lt_ge_cases j (length a)) as [Y|Y]; [lia|].
  rewrite nth_error_app2 in J by auto. apply nth_error_In in J. apply B in J. contradiction.
Qed.

Section Key.
  Variables (ovf : bool) (m : vmap) (ts : list table_type) (ti : list N).
  Hypothesis R : rooted m.
  Hypothesis LE : (length ti <= length ts)%nat.
  Hypothesis ONE : Forall single ts.
  Hypothesis RK : ranked ts.
  Hypothesis OV : ovf = true -> Forall isstd ts.

  (** the parent key of a single-name standard table is the root *)
  Lemma gatk_loop_ok : forall n i pe valid fk pk, (i + n <= length ti)%nat ->
    (pe = 2%nat \/ i = 0%nat /\ pe = 0%nat /\ fk = [] \/ forall j u, (i <= j)%nat -> nth_error ts j <> Some (TArrayOf u)) ->
    exists r, gatk_loop ovf m ts ti n i pe valid fk pk = Ok r.
  Proof using R LE ONE RK OV.
    induction n; intros i pe valid fk pk B H; cbn [gatk_loop]; eauto.
    destruct (vindex_ok _ ts i ltac:(lia)) as (t & V & NE). rewrite V. cbn [rbind].
    assert (S1 : single t). { rewrite Forall_forall in ONE. apply ONE. eapply nth_error_In; eauto. }
    apply single_keys in S1 as [k K]. destruct t as [t|t]; cbn [tt_table] in K; rewrite K.
    - destruct (gatk_std m (skipn pe [root_key; k]) valid fk pk) as [[a b] c]. apply IHn; [lia|].
      right; right. intros j u J E. pose proof (ranked_after _ _ _ _ _ RK NE E). lia.
    - assert (A : exists f, gatk_arr m (skipn pe [root_key; k]) fk = Ok f).
      { destruct H as [->|[(-> & -> & ->)|H]].
        - cbn. eauto.
        - cbn [skipn gatk_arr app]. destruct R as (v & l & E). rewrite E. cbn [hv_subkeys].
          rewrite Bool.orb_true_r. rewrite str_eqb_refl. cbn [rbind]. eauto.
        - exfalso. eapply H; eauto. }
      destruct A as [f A]. rewrite A. cbn [rbind]. cbn [last].
      match goal with |- context [rbind ?x _] => assert (D : exists d, x = Ok d) end.
      { destruct (vindex_ok _ ti i ltac:(lia)) as (x & X & _).
        destruct (hget (f ++ k) m) as [hv|]; [|eauto]. destruct (hv_subkeys hv); [|eauto].
        unfold dec_usize. destruct (_ =? 0); [|eauto]. destruct ovf; [|eauto].
        exfalso. specialize (OV eq_refl). rewrite Forall_forall in OV. apply (OV (TArrayOf t)). eapply nth_error_In; eauto. }
      destruct D as [d ->]. cbn [rbind]. destruct (Nat.ltb i (length ti - 1)); apply IHn; try lia; auto.
  Qed.
  Lemma gatk_ok : exists r, get_array_table_key ovf m ts ti = Ok r.
  Proof using R LE ONE RK OV. unfold get_array_table_key. apply gatk_loop_ok; auto. Qed.
  Lemma full_key_ok : forall kc, exists r, get_full_key ovf m ts ti kc = Ok r.
  Proof using R LE ONE RK OV.
    intros kc. unfold get_full_key. destruct gatk_ok as [[[a b] c] ->]. cbn [rbind].
    destruct (get_keychain_key kc). destruct b; eauto.
  Qed.
End Key.

Lemma gkp_loop_ok : forall ts ti, (length ti <= length ts)%nat -> forall n i pe kp, (i + n <= length ti)%nat ->
  exists k, gkp_loop ts ti n i pe kp = Ok k.
Proof.
  intros ts ti LE. induction n; intros i pe kp B; cbn [gkp_loop]; eauto.
  destruct (vindex_ok _ ts i ltac:(lia)) as (t & V & NE). rewrite V. cbn [rbind].
  destruct t; [apply IHn; lia|]. destruct (vindex_ok _ ti i ltac:(lia)) as (x & X & _). rewrite X. cbn [rbind]. apply IHn; lia.
Qed.
Lemma gkp_ok : forall ts ti, (length ti <= length ts)%nat -> exists k, get_key_parent ts ti = Ok k.
Proof. intros. apply gkp_loop_ok; lia. Qed.

(** the parent key answered for a standard table with one name after arrays of tables *)
Lemma gatk_pk : forall ovf m ts ti n i pe valid fk pk r, (i + n = length ti)%nat -> (length ti <= length ts)%nat -> Forall single ts ->
  (exists t, nth_error ts (length ti - 1) = Some (TStandard t)) -> ranked ts ->
  gatk_loop ovf m ts ti n i pe valid fk pk = Ok r -> (pe = 2%nat \/ pe = 0%nat) -> snd r = pk.
Proof.
  induction n; intros i pe valid fk pk r L LE ONE T RK H PE; cbn [gatk_loop] in H; [inversion H; auto|].
  destruct (vindex_ok _ ts i ltac:(lia)) as (t & V & NE). rewrite V in H. cbn [rbind] in H.
  assert (S1 : single t). { rewrite Forall_forall in ONE. apply ONE. eapply nth_error_In; eauto. }
  apply single_keys in S1 as [k K]. destruct t as [t|t]; cbn [tt_table] in K; rewrite K in H.
  - assert (X : exists v f, gatk_std m (skipn pe [root_key; k]) valid fk pk = (v, f, pk)).
    { destruct PE as [->| ->]; cbn [skipn gatk_std]; rewrite ?str_eqb_refl; eauto. }
    destruct X as (v & f & X). rewrite X in H. apply IHn in H; auto. lia.
  - apply rbind_ok in H as (f & A & H). apply rbind_ok in H as (d & D & H).
    destruct T as [t0 T]. pose proof (ranked_after _ _ _ _ _ RK T NE).
    destruct (Nat.ltb_spec i (length ti - 1)); [|lia]. apply IHn in H; eauto. lia.
Qed.

(** ** The stack of tables *)
Record arrs (ovf : bool) (ts : list table_type) (ti : list N) : Prop := {
  ar_len : length ti = length ts;
  ar_one : Forall single ts;
  ar_arr : Forall isarr ts;
  ar_ovf : ovf = true -> ts = [] }.

Lemma top_ranked : forall ts, top_std ts -> ranked ts.
Proof. intros ts (a & b & H & A & B & _). exists a, b. auto. Qed.
Lemma ranked_push : forall ts t, ranked ts -> ranked (vpush ts (TStandard t)).
Proof.
  intros ts t (a & b & -> & A & B). exists a, (b ++ [TStandard t]). unfold vpush. rewrite app_assoc. repeat split; auto.
  apply Forall_app. split; auto. repeat constructor.
Qed.
Lemma arrs_tabs : forall ovf ts ti, arrs ovf ts ti -> tabs ovf ts ti.
Proof.
  intros ovf ts ti []. split; auto.
  - exists ts, []. rewrite app_nil_r. repeat split; auto.
  - intros O. rewrite ar_ovf0; auto.
Qed.
Lemma push_len : forall A (l : list A) x, length (vpush l x) = S (length l).
Proof. intros. unfold vpush. rewrite app_length. simpl. lia. Qed.
Lemma push_forall : forall A (Q : A -> Prop) l x, Forall Q l -> Q x -> Forall Q (vpush l x).
Proof. intros. unfold vpush. apply Forall_app. auto. Qed.
Lemma arrs_std : forall ovf ts ti t x, arrs ovf ts ti -> single (TStandard t) -> tabs ovf (vpush ts (TStandard t)) (vpush ti x).
Proof.
  intros ovf ts ti t x [] S. split.
  - rewrite !push_len. auto.
  - apply push_forall; auto.
  - exists ts, [TStandard t]. repeat split; auto. repeat constructor.
  - intros O. rewrite ar_ovf0 by auto. repeat constructor.
Qed.
Lemma arrs_arr : forall ovf ts ti t x, arrs ovf ts ti -> ovf = false -> single (TArrayOf t) ->
  arrs ovf (vpush ts (TArrayOf t)) (vpush ti x).
Proof.
  intros ovf ts ti t x [] O S. split.
  - rewrite !push_len. auto.
  - apply push_forall; auto.
  - apply push_forall; simpl; auto.
  - congruence.
Qed.
Lemma arrs_prefix : forall ovf ts ti ts' ti' p, arrs ovf ts ti -> ts = ts' ++ p -> length ti' = length ts' -> arrs ovf ts' ti'.
Proof.
  intros ovf ts ti ts' ti' p [] -> L. apply Forall_app in ar_one0 as [? ?]. apply Forall_app in ar_arr0 as [? ?]. split; auto.
  intros O. apply ar_ovf0, app_eq_nil in O as [-> _]. auto.
Qed.
Lemma pop_len : forall A (l : list A), length (vpop l) = (length l - 1)%nat.
Proof. intros. unfold vpop. induction l as [|x [|y l]]; cbn [removelast length] in *; auto. rewrite IHl. lia. Qed.
Lemma vpop_last : forall A (l : list A) x, vpop (l ++ [x]) = l.
Proof. intros. apply removelast_last. Qed.
Lemma vlast_last : forall A (l : list A) x, vlast (l ++ [x]) = Some x.
Proof.
  intros. unfold vlast. destruct (l ++ [x]) eqn:E; [destruct l; discriminate|]. rewrite <- E, app_length. simpl.
  rewrite Nat.add_sub, nth_error_app2, Nat.sub_diag; auto.
Qed.
Lemma pop_prefix : forall A (l : list A), exists p, l = vpop l ++ p.
Proof. intros A l. destruct l using rev_ind; [exists []; auto|]. exists [x]. rewrite vpop_last. auto. Qed.

(** with the standard table on top removed only arrays of tables remain *)
Lemma pop_top : forall ovf ts ti, tabs ovf ts ti -> is_top_std_table ts = true -> arrs ovf (vpop ts) (vpop ti).
Proof.
  intros ovf ts ti [] H. destruct tb_top0 as (a & b & -> & A & B & L). split.
  - rewrite !pop_len. lia.
  - destruct (pop_prefix _ (a ++ b)) as [p E]. rewrite E in tb_one0. apply Forall_app in tb_one0. tauto.
  - destruct b as [|t [|]]; [|rewrite vpop_last; auto|simpl in L; lia]. rewrite app_nil_r in *.
    destruct (pop_prefix _ a) as [p E]. rewrite E in A. apply Forall_app in A. tauto.
  - intros O. specialize (tb_ovf0 O). apply Forall_app in tb_ovf0 as [X _].
    destruct a as [|t a]; [|inversion A; inversion X; subst; destruct t; contradiction].
    destruct b as [|t [|]]; [reflexivity|reflexivity|simpl in L; lia].
Qed.
Lemma no_top : forall ovf ts ti, tabs ovf ts ti -> is_top_std_table ts = false -> arrs ovf ts ti.
Proof.
  intros ovf ts ti [] H. destruct tb_top0 as (a & b & -> & A & B & L).
  destruct b as [|t b].
  - rewrite app_nil_r in *. split; auto. intros O. specialize (tb_ovf0 O).
    destruct a as [|t a]; auto. inversion A; inversion tb_ovf0; subst; destruct t; contradiction.
  - exfalso. destruct b; [|simpl in L; lia]. unfold is_top_std_table in H. rewrite vlast_last in H.
    inversion B; subst. destruct t; [discriminate|contradiction].
Qed.
Lemma arrs_pop : forall ovf ts ti, arrs ovf ts ti -> arrs ovf (vpop ts) (vpop ti).
Proof.
  intros ovf ts ti H. destruct (pop_prefix _ ts) as [p E]. eapply arrs_prefix; eauto. rewrite !pop_len. destruct H. lia.
Qed.

Lemma until_sub : forall r rt ri a b, pop_until_sub r rt ri = (a, b) -> length ri = length rt ->
  length b = length a /\ exists p, rt = p ++ a.
Proof.
  intros r. induction rt as [|t rt IH]; intros ri a b H L; cbn [pop_until_sub] in H.
  - inversion H; subst. split; [auto|exists []; auto].
  - destruct ri as [|x ri]; [discriminate|]. cbn [tl] in H. simpl in L. destruct rt as [|u rt'].
    + inversion H; subst. destruct b; [|simpl in L; lia]. split; [auto|exists [t]; auto].
    + destruct (is_subtable_of r u).
      * inversion H; subst. split; [lia|exists [t]; auto].
      * apply IH in H as [H (p & E)]; [|lia]. split; auto. exists (t :: p). rewrite E. auto.
Qed.
Lemma until_key : forall k rt ri a b, pop_until_key k rt ri = (a, b) -> length ri = length rt ->
  length b = length a /\ exists p, rt = p ++ a.
Proof.
  intros k. induction rt as [|t rt IH]; intros ri a b H L; cbn [pop_until_key] in H.
  - inversion H; subst. split; [auto|exists []; auto].
  - destruct ri as [|x ri]; [discriminate|]. cbn [tl] in H. simpl in L. destruct (str_eqb _ _).
    + inversion H; subst. split; [simpl; lia|exists []; auto].
    + apply IH in H as [H (p & E)]; [|lia]. split; auto. exists (t :: p). rewrite E. auto.
Qed.
Lemma arrs_rev : forall ovf ts ti a b, arrs ovf ts ti -> length b = length a -> (exists p, rev ts = p ++ a) -> arrs ovf (rev a) (rev b).
Proof.
  intros ovf ts ti a b H L [p E]. apply (arrs_prefix _ _ _ (rev a) (rev b) (rev p) H); [|rewrite !rev_length; auto].
  rewrite <- rev_app_distr, <- E, rev_involutive. auto.
Qed.

(** ** The actions *)
Lemma tabs_key : forall ovf m ts ti, tabs ovf ts ti -> rooted m -> exists r, get_array_table_key ovf m ts ti = Ok r.
Proof. intros ovf m ts ti [] R. apply gatk_ok; auto; [lia|apply top_ranked; auto]. Qed.
Lemma tabs_full : forall ovf m ts ti kc, tabs ovf ts ti -> rooted m -> exists r, get_full_key ovf m ts ti kc = Ok r.
Proof. intros ovf m ts ti kc [] R. apply full_key_ok; auto; [lia|apply top_ranked; auto]. Qed.

Lemma implicit_ok : forall ovf m ts ti t, arrs ovf ts ti -> rooted m -> single t ->
  exists m', add_implicit_tables ovf m ts ti t = Ok m' /\ rooted m'.
Proof.
  intros ovf m ts ti t A R S. unfold add_implicit_tables.
  destruct (tabs_key ovf m ts ti (arrs_tabs _ _ _ A) R) as [[[v lk] pk] ->]. cbn [rbind]. destruct v; cbn [negb]; [|eauto].
  unfold single in S. destruct (tt_table t) as [|w [|]]; try discriminate.
  assert (X : forall lk st, exists m', ait_loop m (skipn st [w]) true lk = Ok m' /\ rooted m').
  { intros l st. destruct st as [|st]; [|cbn [skipn]; rewrite skipn_nil; cbn [ait_loop]; eauto].
    cbn [skipn ait_loop]. destruct (hget l m) as [hv|] eqn:E; [|cbn [rbind]; eauto].
    destruct (hv_subkeys hv) eqn:Q.
    - cbn [rbind]. eexists. split; [reflexivity|]. eapply rooted_same; eauto. rewrite Q. auto.
    - destruct (vinsert _ _). cbn [rbind]. eexists. split; [reflexivity|]. eapply rooted_same; eauto. rewrite Q. auto. }
  destruct (vlast ts); apply X.
Qed.
Lemma table_set_ok : forall m ts ti k, length ti = length ts -> rooted m ->
  exists m', add_to_table_set m ts ti k = Ok m' /\ rooted m'.
Proof.
  intros m ts ti k L R. unfold add_to_table_set. destruct (gkp_ok ts ti ltac:(lia)) as [pk ->]. cbn [rbind].
  destruct (hget pk m) as [hv|] eqn:E; eauto. destruct (hv_subkeys hv) eqn:Q; eauto.
  eexists. split; [reflexivity|]. eapply rooted_same; eauto. rewrite Q. auto.
Qed.
Lemma increment_ok : forall m ts ti, length ti = length ts -> ts <> [] -> rooted m ->
  exists m' ti', increment_array_table_index m ts ti = Ok (m', ti') /\ rooted m' /\ length ti' = length ts.
Proof.
  intros m ts ti L NE R. unfold increment_array_table_index. destruct (gkp_ok ts ti ltac:(lia)) as [pk ->]. cbn [rbind].
  destruct ti as [|x0 ti0] using rev_ind; [destruct ts; [congruence|discriminate]|]. rewrite vlast_last. clear IHti0.
  do 2 eexists. split; [reflexivity|]. split; [|rewrite push_len, vpop_last, <- L, app_length; simpl; lia].
  destruct (hget pk m) as [hv|] eqn:E; auto. destruct (hv_subkeys hv) eqn:Q; auto. eapply rooted_same; eauto. rewrite Q. auto.
Qed.

(** the loop looks only at the tables that have an index *)
Lemma gatk_push : forall ovf m ts ti t, length ti = length ts ->
  get_array_table_key ovf m (vpush ts t) ti = get_array_table_key ovf m ts ti.
Proof.
  intros ovf m ts ti t L. unfold get_array_table_key.
  assert (Y : forall n i pe v fk pk, (i + n <= length ti)%nat ->
    gatk_loop ovf m (vpush ts t) ti n i pe v fk pk = gatk_loop ovf m ts ti n i pe v fk pk).
  { induction n; intros i pe v fk pk B; cbn [gatk_loop]; auto.
    assert (V : vindex (vpush ts t) i = vindex ts i) by (unfold vindex, vpush; rewrite nth_error_app1 by lia; auto).
    rewrite V. destruct (vindex ts i) as [[u|u]| |]; cbn [rbind]; auto.
    - destruct (gatk_std m (skipn pe (get_last_keys u)) v fk pk) as [[a b] c]. apply IHn. lia.
    - destruct (gatk_arr m (skipn pe (get_last_keys u)) fk) as [f| |]; cbn [rbind]; auto.
      match goal with |- rbind ?x _ = _ => destruct x; cbn [rbind]; auto end.
      destruct (Nat.ltb i (length ti - 1)); apply IHn; lia. }
  apply Y. lia.
Qed.
Lemma keyval_keys_ok : forall n s, G n s -> exists r, keyval_keys s = Ok r.
Proof.
  intros n s [T R _ _]. unfold keyval_keys. destruct (p_last_table s) as [[t|t]|].
  - unfold get_full_key. rewrite gatk_push by (destruct T; auto).
    destruct (tabs_full _ _ _ _ (p_keychain s) T R) as [[[a b] c] X]. unfold get_full_key in X. rewrite X. cbn [rbind]. eauto.
  - destruct (tabs_full _ _ _ _ (p_keychain s) T R) as [[[a b] c] X]. rewrite X. cbn [rbind]. eauto.
  - destruct (get_keychain_key (p_keychain s)). eauto.
Qed.
Lemma insert_ok : forall n s c v, G (S n) s -> to_val c.(c_val) = Ok v ->
  exists s', insert_keyval_into_map s c = Ok s' /\ G (S n) s' /\ s'.(p_keychain) = s.(p_keychain).
Proof.
  intros n s c v H TV. unfold insert_keyval_into_map. destruct (keyval_keys_ok _ _ H) as [[fk pk] ->]. cbn [rbind].
  destruct H as [T R E C]. assert (K : p_keychain s <> []) by (intros X; rewrite X in C; simpl in C; lia).
  assert (M : forall m, rooted m -> exists m', update_parent m pk (p_keychain s) = Ok m' /\ rooted m') by (intros; apply update_parent_ok; auto).
  destruct (hget fk (p_map s)) as [[[c0|] sub]|] eqn:HG.
  - rewrite TV. cbn [rbind]. eexists. split; [reflexivity|]. split; auto. split; auto. intros _. cbn. unfold vpush. destruct (p_errors s); discriminate.
  - destruct (M (hput fk (HashValue (Some c) sub) (p_map s))) as (m' & -> & R').
    { eapply rooted_same; eauto. cbn. destruct sub; auto. }
    cbn [rbind]. eexists. split; [reflexivity|]. split; auto. split; auto.
  - match goal with |- context [update_parent ?x _ _] => destruct (M x) as (m' & -> & R') end.
    { apply rooted_new; auto. }
    cbn [rbind]. eexists. split; [reflexivity|]. split; auto. split; auto.
Qed.
Lemma keyval_ok : forall n k sep c v s, G (S n) s -> to_val c.(c_val) = Ok v ->
  exists s', keyval_act k sep c s = Ok (s', KeyVal k sep c) /\ G n s'.
Proof.
  intros n k sep c v s H TV. unfold keyval_act.
  assert (Z : forall s1, G (S n) s1 -> G n (pop_key s1)).
  { intros s1 []. split; auto. cbn. rewrite pop_len. lia. }
  destruct (p_array_error s) eqn:AE.
  - assert (NE : p_errors s <> []) by (destruct H; auto). destruct (exists_last NE) as (es & x & ER). rewrite ER, vlast_last.
    assert (W : forall e, e <> [] -> G (S n) (set_errors e s)) by (intros e NE'; destruct H; split; auto).
    destruct x.
    3: rewrite TV. all: cbn [rbind]; eexists; (split; [reflexivity|]); apply Z, W; unfold vpush; intros X; apply app_eq_nil in X as [_ X]; discriminate.
  - destruct (insert_ok _ _ _ _ H TV) as (s' & -> & H' & _). cbn [rbind]. eauto.
Qed.
Lemma elem_ok : forall n c v sep nls s, G (S n) s -> to_val c.(c_val) = Ok v ->
  exists s', array_value_act c sep nls s = Ok (s', ArrayValue c sep nls) /\ G (S n) s'.
Proof.
  intros n c v sep nls s H TV. unfold array_value_act.
  assert (X : exists t, map_val_to_array_type c.(c_val) = Ok t) by (destruct (c_val c); cbn; eauto; discriminate).
  destruct X as [t ->]. cbn [rbind].
  assert (M : exists s1, check_mixed t s = Ok s1 /\ G (S n) s1).
  { unfold check_mixed. destruct (vlast (p_atypes s)); eauto. destruct (negb _ && negb _); eauto.
    destruct H as [T R E C]. destruct (tabs_full _ _ _ _ (p_keychain s) T R) as [[[x y] z] ->]. cbn [rbind].
    eexists. split; [reflexivity|]. match goal with |- G _ (if ?b then _ else _) => destruct b end; split; auto.
    intros _. cbn. unfold vpush. destruct (p_errors s); discriminate. }
  destruct M as (s1 & -> & G1). cbn [rbind].
  assert (G2 : G (S n) (set_atypes (vpush (vpop (p_atypes s1)) t) s1)) by (destruct G1; split; auto).
  destruct (insert_ok _ _ _ _ G2 TV) as (s2 & -> & G3 & K). cbn [rbind]. rewrite K. cbn [set_atypes p_keychain].
  assert (C : (S n <= length (p_keychain s1))%nat) by (destruct G1; auto).
  destruct (nth_error (p_keychain s1) (length (p_keychain s1) - 1)) eqn:NE; [|apply nth_error_None in NE; lia].
  eexists. split; [reflexivity|]. destruct G3. split; auto. cbn. rewrite app_length, firstn_length. simpl. lia.
Qed.

(** ** The headers *)
Lemma drop_ok : forall n s, G 1 s -> n = 1%nat -> exists s', keychain_drop n s = Ok s' /\ G 0 s' /\ s'.(p_ovf) = s.(p_ovf).
Proof.
  intros n s [T R E C] ->. unfold keychain_drop. destruct (Nat.ltb_spec (length (p_keychain s)) 1); [lia|].
  eexists. split; [reflexivity|]. split; auto. split; auto. lia.
Qed.

Lemma std_ok : forall w1 w2 k s, G 1 s -> exists s' t, std_table_act w1 w2 k [] s = Ok (s', t) /\ G 0 s'.
Proof.
  intros w1 w2 k s H. unfold std_table_act. cbn [length].
  destruct (drop_ok 1 s H eq_refl) as (s1 & -> & H1 & O1). cbn [rbind]. clear H O1 s. rename s1 into s. destruct H1 as [T R E C].
  set (res := TStandard _). assert (S1 : single res) by reflexivity.
  (* the top is removed *)
  assert (A : exists ts ti, (if is_top_std_table (p_tables s) || equal_key_length res (p_tables s)
    then (vpop (p_tables s), vpop (p_tindex s)) else (p_tables s, p_tindex s)) = (ts, ti) /\ arrs (p_ovf s) ts ti).
  { destruct (is_top_std_table (p_tables s)) eqn:TS; cbn [orb].
    - do 2 eexists. split; [reflexivity|]. eapply pop_top; eauto.
    - pose proof (no_top _ _ _ T TS). destruct (equal_key_length _ _); do 2 eexists; (split; [reflexivity|]); auto.
      apply arrs_pop; auto. }
  destruct A as (ts & ti & -> & A).
  (* and what is not a super-table *)
  assert (B : exists ts2 ti2, match vlast ts with
    | None => (ts, ti)
    | Some l => if str_eqb (format_tt_keys res) (format_tt_keys l) then (ts, ti)
        else if is_subtable_of res l then (ts, ti)
        else let (a, b) := pop_until_sub res (rev ts) (rev ti) in (rev a, rev b)
    end = (ts2, ti2) /\ arrs (p_ovf s) ts2 ti2).
  { destruct (vlast ts); eauto. destruct (str_eqb _ _); eauto. destruct (is_subtable_of _ _); eauto.
    destruct (pop_until_sub res (rev ts) (rev ti)) as [a b] eqn:Q. apply until_sub in Q as [L P]; [|rewrite !rev_length; destruct A; auto].
    do 2 eexists. split; [reflexivity|]. eapply arrs_rev; eauto. }
  destruct B as (ts2 & ti2 & -> & B). clear A ts ti. rename ts2 into ts, ti2 into ti.
  pose proof (arrs_std _ _ _ _ 0 B S1) as TP. fold res in TP.
  destruct (tabs_key _ (p_map s) _ _ TP R) as [[[vd tk] pk] KEY].
  assert (PK : pk = root_key).
  { change pk with (snd (vd, tk, pk)). unfold get_array_table_key in KEY. destruct TP.
    eapply gatk_pk; [..|exact KEY|]; auto; try lia; [|apply top_ranked; auto].
    rewrite push_len. destruct B. exists (tt_table res). unfold vpush. replace (S (length ti) - 1)%nat with (length ts) by lia.
    rewrite nth_error_app2, Nat.sub_diag by lia. reflexivity. }
  subst pk. rewrite KEY. cbn [rbind].
  match goal with |- context [rbind ?x _] => assert (Z : exists e tk', x = Ok (e, tk', root_key)) end.
  { match goal with |- context [if ?b then _ else _] => destruct b; [eauto|] end. destruct vd; cbn [negb]; eauto.
    unfold key_has_children_with_values. rewrite str_eqb_refl. cbn [rbind]. eauto. }
  destruct Z as (e & tk' & ->). cbn [rbind]. destruct e.
  - do 2 eexists. split; [reflexivity|]. split; cbn; auto; [apply arrs_tabs; auto|]. intros _. unfold vpush. destruct (p_errors s); discriminate.
  - destruct (implicit_ok _ (p_map s) _ _ _ B R S1) as (m1 & -> & R1). cbn [rbind].
    match goal with |- context [add_to_table_set m1 ts ti ?x] => destruct (table_set_ok m1 ts ti x) as (m2 & -> & R2) end; auto; [destruct B; auto|].
    cbn [rbind]. unfold new_cell. cbn [c_id].
    match goal with |- context [hget root_key ?x] => assert (R3 : rooted x) end.
    { destruct (hget tk' m2) as [hv|] eqn:Q; [|apply rooted_new; auto]. eapply rooted_same; eauto. destruct (hv_subkeys hv); auto. }
    destruct R3 as (v3 & l3 & R3). rewrite R3. cbn [hv_subkeys rbind]. do 2 eexists. split; [reflexivity|].
    split; cbn; auto; [|discriminate]. unfold rooted. rewrite hget_hput_same. eauto.
Qed.

Lemma arr_ok : forall w1 w2 k s, G 1 s -> s.(p_ovf) = false -> exists s' t, array_table_act w1 w2 k [] s = Ok (s', t) /\ G 0 s'.
Proof.
  intros w1 w2 k s H OV. unfold array_table_act. cbn [length].
  destruct (drop_ok 1 s H eq_refl) as (s1 & -> & H1 & O1). cbn [rbind]. rewrite <- O1 in OV. clear H O1 s. rename s1 into s. destruct H1 as [T R E C].
  set (res := TArrayOf _). assert (S1 : single res) by reflexivity.
  assert (A : exists ts ti, (if is_top_std_table (p_tables s)
    then (vpop (p_tables s), vpop (p_tindex s)) else (p_tables s, p_tindex s)) = (ts, ti) /\ arrs (p_ovf s) ts ti).
  { destruct (is_top_std_table (p_tables s)) eqn:TS; do 2 eexists; (split; [reflexivity|]).
    - eapply pop_top; eauto.
    - eapply no_top; eauto. }
  destruct A as (ts & ti & -> & A). cbn [p_map set_array_error].
  match goal with |- context [rbind ?x _] => assert (B : exists m2 ts2 ti2, x = Ok (m2, ts2, ti2) /\ arrs (p_ovf s) ts2 ti2 /\ rooted m2) end.
  { assert (NEW : exists m', add_implicit_tables (p_ovf s) (p_map s) ts ti res = Ok m' /\ rooted m') by (apply implicit_ok; auto).
    assert (INC : forall m ts ti, arrs (p_ovf s) ts ti -> ts <> [] -> rooted m -> exists m' ti',
      increment_array_table_index m ts ti = Ok (m', ti') /\ rooted m' /\ arrs (p_ovf s) ts ti').
    { intros m0 ts0 ti0 A0 NE0 R0. destruct (increment_ok m0 ts0 ti0) as (m' & ti' & -> & R' & L'); auto; [destruct A0; auto|].
      exists m', ti'. repeat split; auto; destruct A0; auto. }
    destruct (vlast ts) as [l|] eqn:VL.
    - destruct (str_eqb _ _).
      + destruct (INC (p_map s) ts ti A) as (m' & ti' & -> & R' & A'); auto; [destruct ts; [discriminate|discriminate]|].
        cbn [rbind]. eauto 6.
      + destruct (is_subtable_of res l).
        * destruct NEW as (m' & -> & R'). cbn [rbind]. do 3 eexists. split; [reflexivity|]. split; auto. apply arrs_arr; auto.
        * destruct (pop_until_key _ (rev ts) (rev ti)) as [a b] eqn:Q.
          apply until_key in Q as [L P]; [|rewrite !rev_length; destruct A; auto].
          pose proof (arrs_rev _ _ _ _ _ A L P) as A2. destruct (rev a) as [|t0 a0] eqn:RA.
          -- destruct (implicit_ok _ (p_map s) _ _ res A2 R S1) as (m' & -> & R'). cbn [rbind].
             assert (A3 : arrs (p_ovf s) (vpush [] res) (vpush (rev b) 0)) by (apply arrs_arr; auto).
             destruct (gkp_ok (vpush [] res) (vpush (rev b) 0)) as [pk ->]; [destruct A3; lia|]. cbn [rbind].
             destruct (hmem pk m'); [|eauto 6].
             destruct (INC m' _ _ A3) as (m'' & ti' & -> & R'' & A'); auto; [discriminate|]. cbn [rbind]. eauto 6.
          -- destruct (INC (p_map s) _ _ A2) as (m' & ti' & -> & R' & A'); auto; [discriminate|]. cbn [rbind]. eauto 6.
    - destruct NEW as (m' & -> & R'). cbn [rbind]. do 3 eexists. split; [reflexivity|]. split; auto. apply arrs_arr; auto. }
  destruct B as (m2 & ts2 & ti2 & -> & B & R2). cbn [rbind].
  destruct (tabs_key _ m2 _ _ (arrs_tabs _ _ _ B) R2) as [[[vd fk] pk] ->]. cbn [rbind]. destruct vd; cbn [negb].
  - do 2 eexists. split; [reflexivity|]. split; cbn; auto; [apply arrs_tabs; auto| |discriminate].
    apply rooted_put; eauto. destruct (hmem pk m2) eqn:HM; auto. apply rooted_new; auto.
    unfold hmem, is_some in HM. destruct (hget pk m2); [discriminate|auto].
  - do 2 eexists. split; [reflexivity|]. split; cbn; auto; [apply arrs_tabs; auto|discriminate].
Qed.

(** ** Parsers that do not panic *)
Definition safe {A} (Pre : pst -> Prop) (p : P A) (E : pst -> Prop) (Q : A -> pst -> Prop) : Prop :=
  forall s i, Pre s -> match p s i with
                       | Ok (s', Done _ a) => Q a s'
                       | Ok (s', _) => E s'
                       | Panic => False
                       | Fuel => True
                       end.

Lemma s_conseq : forall A (Pre Pre' E E' : pst -> Prop) (p : P A) (Q Q' : A -> pst -> Prop), safe Pre p E Q ->
  (forall s, Pre' s -> Pre s) -> (forall s, E s -> E' s) -> (forall a s, Q a s -> Q' a s) -> safe Pre' p E' Q'.
Proof. intros A Pre Pre' E E' p Q Q' H HP HE HQ s i S. specialize (H s i (HP _ S)). destruct (p s i) as [[s' []]| |]; auto. Qed.
Lemma s_bind : forall A B Pre (p : P A) E Q1 (k : A -> P B) Q, safe Pre p E Q1 ->
  (forall a, safe (Q1 a) (k a) E Q) -> safe Pre (bind p k) E Q.
Proof.
  intros A B Pre p E Q1 k Q H H2 s i S. unfold bind. specialize (H s i S).
  destruct (p s i) as [[s' []]| |]; cbn [rbind]; auto. apply H2. auto.
Qed.
Lemma s_ret : forall A (a : A) (Pre : pst -> Prop) E (Q : A -> pst -> Prop), (forall s, Pre s -> Q a s) -> safe Pre (ret a) E Q.
Proof. intros A a Pre E Q H s i S. cbn. auto. Qed.
Lemma s_complete : forall A Pre (p : P A) E Q, safe Pre p E Q -> safe Pre (complete p) E Q.
Proof. intros A Pre p E Q H s i S. unfold complete. specialize (H s i S). destruct (p s i) as [[s' []]| |]; cbn [rbind]; auto. Qed.
Lemma s_alt : forall A (p q : P A) Pre E Q, safe Pre p E Q -> safe E q E Q -> safe Pre (alt p q) E Q.
Proof. intros A p q Pre E Q H H2 s i S. unfold alt. specialize (H s i S). destruct (p s i) as [[s' []]| |]; cbn [rbind]; auto. apply H2. auto. Qed.
Lemma s_opt : forall A (p : P A) Pre (E : pst -> Prop) (Q : option A -> pst -> Prop),
  safe Pre p E (fun a => Q (Some a)) -> (forall s, E s -> Q None s) -> safe Pre (opt p) E Q.
Proof. intros A p Pre E Q H H2 s i S. unfold opt. specialize (H s i S). destruct (p s i) as [[s' []]| |]; cbn [rbind]; auto. Qed.
Lemma s_act : forall A (f : pst -> res (pst * A)) (Pre E : pst -> Prop) (Q : A -> pst -> Prop),
  (forall s, Pre s -> exists s' a, f s = Ok (s', a) /\ Q a s') -> safe Pre (act f) E Q.
Proof. intros A f Pre E Q H s i S. unfold act. destruct (H s S) as (s' & a & -> & X). cbn [rbind]. auto. Qed.
Lemma s_pure : forall A (p : P A) (Pre E : pst -> Prop) (Q : A -> pst -> Prop), pure p ->
  (forall s, Pre s -> E s) -> (forall a s, Pre s -> Q a s) -> safe Pre p E Q.
Proof. intros A p Pre E Q H HE HQ s i S. destruct (H s i) as [r ->]. destruct r; auto. Qed.
Lemma s_loop : forall A (p : P A) (I : pst -> Prop) (X : A -> Prop), safe I p I (fun a s => I s /\ X a) ->
  forall n s i, I s -> match many_loop n p s i with
                       | Ok (s', Done _ l) => I s' /\ Forall X l
                       | Ok (s', _) => I s'
                       | Panic => False
                       | Fuel => True
                       end.
Proof.
  intros A p I X H. induction n; intros s i S; cbn [many_loop]; auto. destruct i as [|c i]; [auto|].
  specialize (H s (c :: i) S). destruct (p s (c :: i)) as [[s1 r1]| |]; cbn [rbind]; auto.
  destruct r1; auto. destruct H as [H XA]. destruct (Nat.eqb _ _); [auto|].
  specialize (IHn s1 rest H). destruct (many_loop n p s1 rest) as [[s2 r2]| |]; cbn [rbind]; auto.
  destruct r2; auto. destruct IHn. auto.
Qed.
Lemma s_many0 : forall A (p : P A) (I : pst -> Prop) (X : A -> Prop), safe I p I (fun a s => I s /\ X a) ->
  safe I (many0 p) I (fun l s => I s /\ Forall X l).
Proof. intros A p I X H s i S. apply s_loop; auto. Qed.

Lemma g_line : forall n k s, G n s -> G n (add_lines k s).
Proof. intros n k s []. split; auto. Qed.
Lemma g_types : forall n a s, G n s -> G n (set_atypes a s).
Proof. intros n k s []. split; auto. Qed.
Lemma g_next : forall n a s, G n s -> G n (set_next a s).
Proof. intros n k s []. split; auto. Qed.
Lemma g_push : forall n k s, G n s -> G (S n) (push_key k s).
Proof. intros n k s []. split; auto. cbn. rewrite push_len. lia. Qed.
Lemma g_pop : forall n s, G (S n) s -> G n (pop_key s).
Proof. intros n s []. split; auto. cbn. rewrite pop_len. lia. Qed.
Lemma g_error : forall n e s, G n s -> G n (push_error e s).
Proof. intros n e s []. split; auto. intros _. cbn. unfold vpush. destruct (p_errors s); discriminate. Qed.

(** parsers that keep the invariant *)
Definition nsafe {A} (p : P A) : Prop := forall n, safe (G n) p (G n) (fun _ => G n).
Lemma ns_pure : forall A (p : P A), pure p -> nsafe p.
Proof. intros A p H n. apply s_pure; auto. Qed.
Lemma ns_complete : forall A (p : P A), nsafe p -> nsafe (complete p).
Proof. intros A p H n. apply s_complete; auto. Qed.
Lemma ns_pmap : forall A B (p : P A) (f : A -> B), nsafe p -> nsafe (pmap p f).
Proof. intros A B p f H n. eapply s_bind; [apply H|]. intros. apply s_ret; auto. Qed.
Lemma ns_newline : nsafe newline.
Proof.
  intros n. unfold newline. apply s_alt; (eapply s_bind; [apply ns_pure; pure_tac|]);
    intros a; apply s_act; intros s S; do 2 eexists; (split; [reflexivity|]); apply g_line; auto.
Qed.
Lemma ns_raw_ml : forall p : P str, pure p -> nsafe (x <-- p ;; act (fun s => Ok (add_lines (count_lines x) s, x))).
Proof.
  intros p H n. eapply s_bind; [apply ns_pure; auto|]. intros a. apply s_act. intros s S. do 2 eexists. split; [reflexivity|].
  apply g_line; auto.
Qed.
Definition vgood (t : tval) : Prop := exists v, to_val t = Ok v.
Lemma s_string : forall n, safe (G n) string_p (G n) (fun t s => G n s /\ vgood t).
Proof.
  intros n.
  assert (X : forall (p : P str) st, nsafe p ->
    safe (G n) (pmap (complete p) (fun x => TString x st)) (G n) (fun t s => G n s /\ vgood t)).
  { intros p st H. eapply s_bind; [apply ns_complete, H|]. intros a. apply s_ret. intros s S. split; auto. eexists. reflexivity. }
  unfold string_p. repeat apply s_alt; apply X; unfold ml_literal_string_p, ml_basic_string_p, basic_string_p,
    literal_string_p, raw_ml_literal_string, raw_ml_basic_string, raw_basic_string, raw_literal_string;
    apply ns_pmap; try apply ns_raw_ml; try apply ns_pure; pure_tac.
Qed.
Lemma s_date : forall n, safe (G n) date_time (G n) (fun _ => G n).
Proof.
  intros n s i S. unfold date_time. destruct (WalkFacts.pure_dti s i) as [r ->]. cbn [rbind].
  destruct r; auto. destruct (datetime_validate a); auto. pose proof S as [T R _ _].
  destruct (tabs_full _ _ _ _ (p_keychain s) T R) as [[[x y] z] ->]. cbn [rbind]. apply g_error; auto.
Qed.
(** a key adds one element to the key chain *)
Lemma s_key : forall n, safe (G n) key_p (G n) (fun _ => G (S n)).
Proof.
  intros n. unfold key_p. apply s_alt; (eapply s_bind; [apply ns_pure; unfold quoted_key, unquoted_key; pure_tac|]);
    intros a; apply s_act; intros s S; do 2 eexists; (split; [reflexivity|]); apply g_push; auto.
Qed.
Lemma safe_loop_pure : forall A (p : P A), pure p -> forall n s i, match many_loop n p s i with Ok (s', _) => s' = s | Panic => False | Fuel => True end.
Proof.
  intros A p H. induction n; intros s i; cbn [many_loop]; auto. destruct i as [|c i]; auto.
  destruct (H s (c :: i)) as [r ->]. cbn [rbind]. destruct r; auto. destruct (Nat.eqb _ _); auto.
  specialize (IHn s rest). destruct (many_loop n p s rest) as [[s2 r2]| |]; cbn [rbind]; auto.
Qed.
Lemma ns_cons : nsafe comment_or_nls.
Proof.
  intros n s i S. unfold comment_or_nls, many1.
  assert (PU : pure comment_or_nl).
  { unfold comment_or_nl, comment_nl, ws_newline, comment. pure_tac. }
  destruct (PU s i) as [r ->]. cbn [rbind]. destruct r; auto.
  pose proof (safe_loop_pure _ _ PU (Datatypes.S (length rest)) s rest) as X.
  destruct (many_loop _ _ s rest) as [[s2 r2]| |]; cbn [rbind]; auto. subst. destruct r2; auto.
Qed.

Lemma rmap_ok' : forall A B (f : A -> res B) l, Forall (fun x => exists y, f x = Ok y) l -> exists r, rmap f l = Ok r.
Proof.
  intros A B f l H. induction H as [|x l [y E] _ [r IH]]; [exists []; reflexivity|]. exists (y :: r).
  change (rmap f (x :: l)) with (let? a := f x in let? b := rmap f l in Ok (a :: b)). rewrite E, IH. reflexivity.
Qed.

Section SafeVal.
  Variable pval : P cell.
  Definition vsafe (p : P cell) : Prop := forall n, safe (G n) p (G n) (fun c s => G n s /\ vgood c.(c_val)).
  Hypothesis PV : vsafe pval.

  Lemma s_array_value : forall n, safe (G (S n)) (array_value_ pval) (G (S n))
    (fun a s => G (S n) s /\ vgood a.(av_val).(c_val)).
  Proof using PV.
    intros n. unfold array_value_. eapply s_bind; [apply PV|]. intros c.
    apply s_bind with (Q1 := fun _ s => G (S n) s /\ vgood (c_val c)).
    { apply s_pure; [pure_tac; apply WalkFacts.pure_sep| |]; intuition eauto. }
    intros sep. apply s_bind with (Q1 := fun _ s => G (S n) s /\ vgood (c_val c)).
    { intros s i [S V]. pose proof (ns_complete _ _ ns_cons _ s i S) as X. destruct (complete comment_or_nls s i) as [[s' []]| |]; auto. }
    intros nls. apply s_act. intros s [S [v V]]. destruct (elem_ok _ _ _ sep nls _ S V) as (s' & E & S').
    do 2 eexists. split; [exact E|]. split; auto. exists v. auto.
  Qed.
  Lemma s_array : forall n, safe (G n) (array_ pval) (G n) (fun t s => G n s /\ vgood t).
  Proof using PV.
    intros n s i S. unfold array_.
    assert (X : safe (G (Datatypes.S n)) (array_internal_ pval) (G (Datatypes.S n)) (fun t s => G (Datatypes.S n) s /\ vgood t)).
    { unfold array_internal_. eapply s_bind; [apply ns_pure; pure_tac|]. intros u. eapply s_bind; [apply ns_cons|]. intros cn1.
      eapply s_bind; [apply s_many0, s_array_value|]. intros vals.
      apply s_bind with (Q1 := fun _ s => G (Datatypes.S n) s /\ Forall (fun a => vgood (c_val (av_val a))) vals).
      { intros s0 i0 [S0 V0]. pose proof (ns_cons _ s0 i0 S0) as X. destruct (comment_or_nls s0 i0) as [[s' []]| |]; auto. }
      intros cn2. eapply s_bind; [apply s_pure with (Q := fun _ s => G (Datatypes.S n) s /\ Forall (fun a => vgood (c_val (av_val a))) vals); [pure_tac|tauto|tauto]|].
      intros u2. apply s_ret. intros s0 [S0 V0]. split; auto.
      assert (Y : exists l, rmap (fun av => to_val (c_val (av_val av))) vals = Ok l).
      { apply rmap_ok'. exact V0. }
      destruct Y as [l Y]. exists (VArray l). cbn [to_val]. rewrite Y. reflexivity. }
    specialize (X (push_key (KIndex 0) (set_atypes (vpush (p_atypes s) ANone) s)) i (g_push _ _ _ (g_types _ _ _ S))).
    destruct (array_internal_ pval _ i) as [[s1 r1]| |]; cbn [rbind]; auto.
    destruct r1; try (apply g_types, g_pop; auto; fail). destruct X. split; auto. apply g_types, g_pop; auto.
  Qed.
  Lemma s_keyval : forall n, safe (G n) (keyval_p_ pval) (G n) (fun kv s => G n s /\ vgood kv.(kv_val).(c_val)).
  Proof using PV.
    intros n. unfold keyval_p_. eapply s_bind; [apply s_key|]. intros k.
    assert (LE : forall s, G (S n) s -> G n s) by (intros s; apply g_le; lia).
    apply s_bind with (Q1 := fun _ => G (S n)). { apply s_pure; auto. apply WalkFacts.pure_kvsep. } intros sep.
    apply s_bind with (Q1 := fun c s => G (S n) s /\ vgood (c_val c)). { eapply s_conseq; [apply (PV (S n))|auto..]. } intros c.
    apply s_act. intros s [S [v V]]. destruct (keyval_ok _ k sep _ _ _ S V) as (s' & E & S').
    do 2 eexists. split; [exact E|]. split; auto. exists v. auto.
  Qed.
  Lemma s_inline : forall n, safe (G n) (inline_table_ pval) (G n) (fun t s => G n s /\ vgood t).
  Proof using PV.
    intros n. unfold inline_table_. eapply s_bind; [apply ns_pure; pure_tac|]. intros u.
    eapply s_bind; [apply ns_pure; unfold ws; pure_tac|]. intros w1.
    set (X := fun tk => vgood (c_val (kv_val (tk_kv tk)))).
    assert (T : safe (G n) (table_keyval_p_ pval) (G n) (fun tk s => G n s /\ X tk)).
    { unfold table_keyval_p_. eapply s_bind; [apply s_keyval|]. intros kv.
      apply s_bind with (Q1 := fun _ s => G n s /\ vgood (c_val (kv_val kv))).
      { apply s_pure; [pure_tac; apply WalkFacts.pure_sep| |]; intuition eauto. }
      intros sep. apply s_bind with (Q1 := fun _ s => G n s /\ vgood (c_val (kv_val kv))).
      { intros s i [S V]. pose proof (ns_complete _ _ ns_cons _ s i S) as Y. destruct (complete comment_or_nls s i) as [[s' []]| |]; auto. }
      intros nls. apply s_ret. auto. }
    apply s_bind with (Q1 := fun kvs s => G n s /\ Forall X match kvs with Some l => l | None => [] end).
    { apply s_opt; [apply s_complete, s_many0, T|auto]. }
    intros kvs. apply s_bind with (Q1 := fun _ s => G n s /\ Forall X match kvs with Some l => l | None => [] end).
    { apply s_pure; [unfold ws; pure_tac|tauto|tauto]. }
    intros w2. apply s_bind with (Q1 := fun _ s => G n s /\ Forall X match kvs with Some l => l | None => [] end).
    { apply s_pure; [pure_tac|tauto|tauto]. }
    intros u2. apply s_ret. intros s [S V]. split; auto. set (l := match kvs with Some l => l | None => [] end) in *. clearbody l.
    assert (Y : exists r, rmap (fun tk => let? x := to_val (c_val (kv_val (tk_kv tk))) in Ok (kv_key (tk_kv tk), x)) l = Ok r).
    { apply rmap_ok'. eapply Forall_impl; [|exact V]. intros a [v ->]. cbn [rbind]. eauto. }
    destruct Y as [r Y]. exists (VInlineTable r). cbn [to_val]. rewrite Y. reflexivity.
  Qed.
  Lemma s_pcell : forall A (p : P A) f, (forall n, safe (G n) p (G n) (fun a s => G n s /\ vgood (f a))) -> vsafe (pcell p f).
  Proof.
    intros A p f H n. unfold pcell. eapply s_bind; [apply s_complete, H|]. intros a. apply s_act.
    intros s [S V]. do 2 eexists. split; [reflexivity|]. split; [apply g_next; auto|auto].
  Qed.
  Lemma s_val_ : vsafe (val_ pval).
  Proof using PV.
    intros n. unfold val_. repeat apply s_alt; apply s_pcell; intros k.
    - apply s_array.
    - apply s_inline.
    - eapply s_conseq; [exact (s_date k)|auto|auto|]. intros d s S. split; auto. eexists. reflexivity.
    - apply s_pure; auto; [unfold float; pure_tac|]. intros a s S. split; auto. eexists. reflexivity.
    - apply s_pure; auto; [unfold integer; pure_tac|]. intros a s S. split; auto. eexists. reflexivity.
    - apply s_pure; auto; [unfold boolean; pure_tac|]. intros a s S. split; auto. eexists. reflexivity.
    - apply s_string.
  Qed.
End SafeVal.

Lemma s_val : forall f, vsafe (val f).
Proof. induction f; cbn [val]; [intros n s i S; exact I|apply s_val_; auto]. Qed.
Lemma s_keyval_p : forall n, safe (G n) keyval_p (G n) (fun _ => G n).
Proof.
  assert (V : vsafe val_p) by (intros k s i S; apply s_val; auto).
  intros n s i S. pose proof (s_keyval _ V n s i S) as X. unfold keyval_p. destruct (keyval_p_ val_p s i) as [[s' []]| |]; auto. tauto.
Qed.

(** ** Headers and the document *)
Definition post {A} (Q : pst -> Prop) (x : res (pst * ires A)) : Prop :=
  match x with Ok (s', _) => Q s' | Panic => False | Fuel => True end.

Lemma safe_post : forall A (p : P A) (Q : pst -> Prop) s i, safe Q p Q (fun _ => Q) -> Q s -> post Q (p s i).
Proof. intros A p Q s i H S. specialize (H s i S). unfold post. destruct (p s i) as [[s' []]| |]; auto. Qed.

Lemma s_subkeys : forall n, safe (G n) table_subkeys (G n) (fun _ => G n).
Proof.
  intros n. assert (X : safe (G n) table_subkey (G n) (fun _ s => G n s /\ True)).
  { unfold table_subkey. repeat (eapply s_bind; [solve [apply ns_pure; unfold ws; pure_tac]|intros]).
    eapply s_bind; [apply s_key|]. intros k. apply s_ret. intros s S. split; auto. eapply g_le; [|exact S]. lia. }
  eapply s_conseq; [exact (s_many0 _ _ _ _ X)|auto|auto|]. intros l s [S _]. auto.
Qed.

Lemma ws_blanks : forall s i s' r w, ws s i = Ok (s', Done r w) -> s' = s /\ i = w ++ r /\ blanks w.
Proof.
  intros s i s' r w H. rewrite ws_eq in H. inversion H; subst. split; auto. split; [symmetry; apply take_drop|].
  clear. induction i as [|c i IH]; cbn; [constructor|]. destruct (blank_b c) eqn:B; [|constructor].
  constructor; [|exact IH]. unfold blank_b in B. lia.
Qed.
Lemma key_text : forall s i s' r k, key_p s i = Ok (s', Done r k) -> i = k ++ r /\ name_text k.
Proof.
  intros s i s' r k H. split; [apply reads_key in H; exact H|]. unfold key_p in H.
  apply alt_done in H as [H|(s1 & _ & H)]; apply bind_done in H as (s2 & i2 & x & H & H2); apply act_done in H2 as [_ H2]; inversion H2; subst;
    apply complete_done in H.
  - right. apply re_find_done in H as (_ & _ & L). unfold re_quoted_key in L. inversion L as [| |a b x1 y1 A B| | | |]; subst.
    inversion B as [| |a b x2 y2 C D| | | |]; subst. inversion A; subst. inversion D; subst.
    unfold RPlus in C. inversion C as [| |a b x3 y3 C1 C2| | | |]; subst.
    exists (x3 ++ y3). split.
    + apply (lang_basic true). constructor; auto.
    + cbn in *. assert (c = 34) by lia. assert (c0 = 34) by lia. subst. reflexivity.
  - left. apply take_while1_done in H as (_ & _ & -> & _ & NE). split; auto. clear.
    induction i as [|c i IH]; cbn; [constructor|]. destruct (is_keychar c) eqn:B; [|constructor]. constructor; auto. apply bare_keychar. auto.
Qed.
Lemma subkeys_text : forall s i s' r l, table_subkeys s i = Ok (s', Done r l) ->
  l = [] \/ exists w y, i = w ++ lit "." ++ y /\ blanks w.
Proof.
  intros s i s' r l H. unfold table_subkeys, many0 in H. cbn [many_loop] in H. destruct i as [|c i]; [inversion H; auto|].
  apply rbind_ok in H as ([s1 r1] & E & H). destruct r1; [|inversion H; auto|inversion H].
  right. unfold table_subkey in E. apply bind_done in E as (s2 & i2 & w & E1 & E2). apply ws_blanks in E1 as (-> & E1 & B).
  apply bind_done in E2 as (s3 & i3 & u & E2 & _). apply tag_done in E2 as (_ & _ & E2). exists w, i3. rewrite E1, E2. auto.
Qed.

(** a header with one name *)
Lemma header_ok : forall open close f s i, G 0 s ->
  (forall w k w2 y, i = open ++ w ++ k ++ w2 ++ lit "." ++ y -> blanks w -> name_text k -> blanks w2 -> False) ->
  (forall y, i = open ++ y -> forall w1 w2 k s, G 1 s -> exists s' t, f w1 w2 k [] s = Ok (s', t) /\ G 0 s') ->
  post (G 0) ((tag open ;;; (w1 <-- ws ;; (k <-- key_p ;; (subkeys <-- table_subkeys ;; (w2 <-- ws ;;
    (tag close ;;; act (f w1 w2 k subkeys : pst -> res (pst * table_type)))))))) s i).
Proof.
  intros open close f s i S D H. unfold bind at 1. destruct (pure_tag open s i) as [r1 E1]. rewrite E1. cbn [rbind].
  destruct r1 as [i1 u1| |]; try exact S. apply tag_done in E1 as (_ & _ & E1).
  unfold bind at 1. destruct (ws_done s i1) as (w1 & i2 & E2). rewrite E2. cbn [rbind]. apply ws_blanks in E2 as (_ & E2 & B1).
  unfold bind at 1. pose proof (s_key 0 s i2 S) as K. destruct (key_p s i2) as [[s3 r3]| |] eqn:E3; cbn [rbind]; auto.
  destruct r3 as [i3 k| |]; try exact K. apply key_text in E3 as [E3 NT].
  unfold bind at 1. pose proof (s_subkeys 1 s3 i3 K) as SK. destruct (table_subkeys s3 i3) as [[s4 r4]| |] eqn:E4; cbn [rbind]; auto.
  assert (LE : forall s, G 1 s -> G 0 s) by (intros x; apply g_le; lia).
  destruct r4 as [i4 l| |]; try (apply LE; exact SK). apply subkeys_text in E4 as [->|(w & y & E4 & B2)].
  - unfold bind at 1. destruct (ws_done s4 i4) as (w2 & i5 & E5). rewrite E5. cbn [rbind].
    unfold bind at 1. destruct (pure_tag close s4 i5) as [r6 E6]. rewrite E6. cbn [rbind]. destruct r6; try (apply LE; exact SK).
    unfold act. destruct (H i1 E1 w1 w2 k s4 SK) as (s' & t & -> & G'). cbn [rbind]. exact G'.
  - exfalso. eapply (D w1 k w y); auto. rewrite E1, E2, E3, E4. reflexivity.
Qed.

Lemma table_ok : forall s i, G 0 s ->
  (forall w h k w2 y, i = h ++ w ++ k ++ w2 ++ lit "." ++ y -> h = lit "[" \/ h = lit "[[" -> blanks w -> name_text k -> blanks w2 -> False) ->
  (o = true -> forall y, i <> lit "[[" ++ y) -> post (G 0) (table_p s i).
Proof.
  intros s i S D OV. unfold table_p, alt, complete.
  assert (A : post (G 0) (array_table s i)).
  { apply header_ok; auto.
    - intros w k w2 y E B1 B2 B3. apply (D w (lit "[[") k w2 y); auto.
    - intros y E w1 w2 k s0 S0. apply arr_ok; auto. destruct S0 as [_ _ _ _ ->]. destruct o; auto. exfalso. eapply OV; eauto. }
  unfold post in A. destruct (array_table s i) as [[s1 r1]| |]; cbn [rbind]; auto.
  assert (B : post (G 0) (std_table s1 i)).
  { apply header_ok; auto.
    - intros w k w2 y E B1 B2 B3. apply (D w (lit "[") k w2 y); auto.
    - intros y E w1 w2 k s0 S0. apply std_ok; auto. }
  unfold post in B. destruct r1; try exact A; destruct (std_table s1 i) as [[s2 r2]| |]; cbn [rbind]; auto.
Qed.

Lemma expr_ok : forall s i, G 0 s -> ~ dotted i -> (o = true -> ~ array_header i) -> post (G 0) (expression_p s i).
Proof.
  intros s i S D OV. unfold expression_p. unfold alt at 1. unfold complete at 1.
  assert (T : post (G 0) (table_comment s i)).
  { unfold table_comment, bind at 1. destruct (ws_done s i) as (w & i1 & E). rewrite E. cbn [rbind]. apply ws_blanks in E as (_ & E & B).
    unfold bind at 1. assert (X : post (G 0) (table_p s i1)).
    { apply table_ok; auto.
      - intros w1 h k w2 y E1 H B1 NT B2. apply D. exists w, h, w1, k, w2, y. rewrite E, E1. auto 10.
      - intros O y E1. apply (OV O). exists w, y. rewrite E, E1. auto. }
    unfold post in X. destruct (table_p s i1) as [[s2 r2]| |]; cbn [rbind]; auto. destruct r2; try exact X.
    match goal with |- post _ (?p s2 rest) => assert (PU : pure p) by (unfold ws, comment; pure_tac) end.
    destruct (PU s2 rest) as [r ->]. exact X. }
  unfold post in T. destruct (table_comment s i) as [[s1 r1]| |]; cbn [rbind]; auto.
  assert (R : safe (G 0) (alt (complete keyval_comment) (alt (complete ws_comment) (complete ws_expr))) (G 0) (fun _ => G 0)).
  { repeat apply s_alt; apply s_complete.
    - unfold keyval_comment. eapply s_bind; [apply ns_pure; unfold ws; pure_tac|]. intros w.
      eapply s_bind; [apply s_keyval_p|]. intros kv. apply ns_pure. unfold ws, comment. pure_tac.
    - apply ns_pure. unfold ws_comment, ws, comment. pure_tac.
    - apply ns_pure. unfold ws_expr, ws. pure_tac. }
  destruct r1; try exact T; apply safe_post; auto.
Qed.

(** the positions at which expressions are tried *)
Lemma line_after : forall s i s' r nl, newline s i = Ok (s', Done r nl) -> exists a, i = a ++ r /\ exists a', a = a' ++ [10].
Proof.
  intros s i s' r nl H. unfold newline in H. apply alt_done in H as [H|(s1 & _ & H)]; apply bind_done in H as (s2 & i2 & x & H & H2);
    apply act_done in H2 as [-> _]; apply complete_done in H; apply tag_done in H as (_ & _ & ->).
  - exists [13;10]. split; auto. exists [13]. reflexivity.
  - exists [10]. split; auto. exists []. reflexivity.
Qed.

Lemma toml_ok : forall s i, G 0 s -> one_name_headers o i -> post (G 0) (toml_p s i).
Proof.
  intros s i S H. unfold toml_p, bind at 1.
  assert (X : forall b s, line_at i b -> G 0 s -> post (G 0) (expression_p s b)).
  { intros b s0 L S0. destruct (H b L) as [H1 H2]. apply expr_ok; auto. }
  pose proof (X i s) as X0. assert (L0 : line_at i i) by (exists []; auto). specialize (X0 L0 S). unfold post in X0.
  destruct (expression_p s i) as [[s1 r1]| |] eqn:E1; cbn [rbind]; auto. destruct r1 as [i1 e| |]; try exact X0.
  apply reads_expression in E1.
  assert (Z : forall n s b, G 0 s -> (exists a, i = a ++ b) -> post (G 0) (many_loop n nl_expression_p s b)).
  { clear E1 X0 s1 i1 e. induction n; intros s1 b S1 [a E]; cbn [many_loop]; [exact I|]. destruct b as [|c b]; [exact S1|].
    unfold nl_expression_p at 1, bind at 1. pose proof (ns_newline 0%nat s1 (c :: b) S1) as NL.
    destruct (newline s1 (c :: b)) as [[s2 r2]| |] eqn:E2; cbn [rbind]; auto. destruct r2 as [i2 nl| |]; try exact NL.
    apply line_after in E2 as (a2 & E2 & a3 & E3).
    assert (L : line_at i i2). { exists (a ++ a2). rewrite E, E2, app_assoc. split; auto. right. exists (a ++ a3). rewrite E3, app_assoc. auto. }
    unfold bind at 1. pose proof (X i2 s2 L NL) as Y. unfold post in Y.
    destruct (expression_p s2 i2) as [[s3 r3]| |] eqn:E4; cbn [rbind]; auto. destruct r3 as [i3 e| |]; try exact Y.
    unfold ret. cbn [rbind]. match goal with |- context [if ?b then _ else _] => destruct b; [exact Y|] end. apply reads_expression in E4.
    specialize (IHn s3 i3 Y). unfold post in IHn |- *. destruct (many_loop n nl_expression_p s3 i3) as [[s4 r4]| |]; cbn [rbind]; apply IHn;
      eexists; rewrite E, E2, E4, !app_assoc; reflexivity. }
  unfold bind at 1, nl_expressions, many0. pose proof (Z (Datatypes.S (length i1)) s1 i1 X0 ltac:(eauto)) as Y. unfold post in Y.
  destruct (many_loop _ _ s1 i1) as [[s2 r2]| |]; cbn [rbind]; auto. destruct r2; exact Y.
Qed.
End Safe.

Lemma g_init : forall ovf, G ovf 0 (new_parser ovf).
Proof.
  intros ovf. split; cbn; auto; try discriminate.
  - split; auto. exists [], []. auto.
  - exists None, []. reflexivity.
Qed.

(** the invariant holds after any number of such parses *)
Lemma parse_ok : forall ovf s i, G ovf 0 s -> one_name_headers ovf i -> exists s' r, parse s i = Ok (s', r) /\ G ovf 0 s'.
Proof.
  intros ovf s i S H. pose proof (toml_ok ovf s i S H) as T. unfold post in T. unfold parse.
  destruct (toml_p s i) as [[s1 r1]| |] eqn:E; cbn [rbind]; [|contradiction|exfalso; eapply nf_toml; eauto].
  assert (Z : forall l t, G ovf 0 (set_leftover l (set_root t s1))) by (intros; destruct T; split; auto).
  destruct r1; do 2 eexists; (split; [reflexivity|]); auto.
Qed.

(** ** A check that implies the condition on headers (used for examples) *)
Fixpoint upto (c : N) (b : str) : str := match b with [] => [] | x :: b' => if x =? c then [] else x :: upto c b' end.
Fixpoint past_blanks (b : str) : str := match b with [] => [] | x :: b' => if (x =? 9) || (x =? 32) then past_blanks b' else b end.
Definition head_check (ovf : bool) (b : str) : bool :=
  match past_blanks b with
  | 91 :: r => negb (existsb (fun c => (c =? 46) || (c =? 34)) (upto 93 r)) &&
               negb (ovf && match r with 91 :: _ => true | _ => false end)
  | _ => true
  end.
Fixpoint heads (i : str) : list str := match i with [] => [] | c :: i' => (if c =? 10 then [i'] else []) ++ heads i' end.
Definition heads_check (ovf : bool) (i : str) : bool := forallb (head_check ovf) (i :: heads i).

Lemma past_app : forall w r, blanks w -> past_blanks (w ++ r) = past_blanks r.
Proof. intros w r B. induction B as [|c w H _ IH]; auto. cbn [app past_blanks]. destruct H as [-> | ->]; cbn; auto. Qed.
Lemma upto_app : forall c a r, ~ In c a -> upto c (a ++ r) = a ++ upto c r.
Proof.
  intros c a r H. induction a as [|x a IH]; auto. cbn [app upto]. destruct (x =? c) eqn:E; [exfalso; apply H; left; lia|].
  rewrite IH; auto. intro. apply H. right. auto.
Qed.
Lemma bare_no : forall k c, bare_key k -> ~ bare_char c -> ~ In c k.
Proof. intros k c [_ F] N I. rewrite Forall_forall in F. auto. Qed.
Lemma blank_no : forall w c, blanks w -> c <> 9 -> c <> 32 -> ~ In c w.
Proof. intros w c B A1 A2 I. unfold blanks in B. rewrite Forall_forall in B. destruct (B c I); auto. Qed.
Lemma check_dotted : forall ovf b, head_check ovf b = true -> ~ dotted b.
Proof.
  intros ovf b H (w & h & w1 & k & w2 & y & -> & B & HH & B1 & NT & B2). unfold head_check in H. rewrite past_app in H by auto.
  assert (X : existsb (fun c => (c =? 46) || (c =? 34)) (upto 93 (w1 ++ k ++ w2 ++ lit "." ++ y)) = true).
  { rewrite upto_app by (apply blank_no; auto; lia). destruct NT as [BK|(x & _ & ->)].
    - rewrite upto_app by (apply bare_no; auto; unfold bare_char; lia). rewrite upto_app by (apply blank_no; auto; lia).
      rewrite !existsb_app. cbn. rewrite !Bool.orb_true_r. auto.
    - rewrite existsb_app. cbn. rewrite Bool.orb_true_r. auto. }
  destruct HH as [-> | ->]; set (r := w1 ++ k ++ w2 ++ lit "." ++ y) in *.
  - change (past_blanks (lit "[" ++ r)) with (91 :: r) in H. cbv iota in H. rewrite X in H. discriminate.
  - change (past_blanks (lit "[[" ++ r)) with (91 :: [91] ++ r) in H. cbv iota in H.
    rewrite upto_app, existsb_app, X, Bool.orb_true_r in H by (intros [E|[]]; discriminate). discriminate.
Qed.
Lemma check_array : forall b, head_check true b = true -> ~ array_header b.
Proof.
  intros b H (w & y & -> & B). unfold head_check in H. rewrite past_app in H by auto.
  change (past_blanks (lit "[[" ++ y)) with (91 :: 91 :: y) in H. cbv iota in H. cbn [andb negb] in H.
  rewrite Bool.andb_false_r in H. discriminate.
Qed.
Lemma heads_line : forall i b, line_at i b -> In b (i :: heads i).
Proof.
  intros i b (a & -> & [->|(a' & ->)]); [left; auto|]. right. induction a' as [|c a' IH]; cbn [app heads].
  - apply in_or_app. left. left. reflexivity.
  - apply in_or_app. right. exact IH.
Qed.
Lemma heads_ok : forall ovf i, heads_check ovf i = true -> one_name_headers ovf i.
Proof.
  intros ovf i H b L. apply heads_line in L. unfold heads_check in H. rewrite forallb_forall in H. specialize (H b L). split.
  - eapply check_dotted; eauto.
  - intros ->. apply check_array; auto.
Qed.
