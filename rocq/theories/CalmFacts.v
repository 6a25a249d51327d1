(** Parsing does not panic on inputs whose dotted headers do not go through
    arrays: an invariant of the map, and of the key chain relative to the input. *)
From Coq Require Import Lia ZifyBool ZifyNat ZifyN.
From Verif Require Import Str Regex Types Ast State Nom Keys Grammar Api Facts Spec RegexFacts NomFacts DateFacts RoundTrip Effects
  ParseFacts WalkFacts StringFacts LineFacts HeadSpec SafeFacts CountFacts CalmSpec CalmWalk.

Section Calm.
Variables (o : bool) (D : str).

(** names of arrays, and of arrays of tables *)
Definition bad_name (n : str) : Prop := name_text n /\ (array_key D n \/ array_name D n).
Definition named (k : str) : Prop := exists p n, k = p ++ n /\ dot_end p /\ name_text n /\ array_name D n.
Local Notation bad := (bad D named).
Local Notation given := (given D).
Local Notation counted := (counted D named).
Lemma not_bad : forall p n, dot_end p -> name_text n -> ~ bad_name n -> ~ bad (p ++ n).
Proof.
  intros p n DP N NB [B|(q & n' & E & DQ & N' & B)].
  - eapply not_array; [exact DP|exact N| |exact B]. intros X. apply NB. split; auto.
  - apply NB. split; auto. rewrite (last_name_eq _ _ _ _ E DP DQ N N'). auto.
Qed.
Lemma name_bad : forall p n, dot_end p -> bad_name n -> bad (p ++ n).
Proof. intros p n DP (N & [B|B]); [left; right|right]; exists p, n; auto. Qed.

(** ** The stack of tables *)
Definition arrt (t : table_type) : Prop := exists w, t = TArrayOf [w] /\ bad_name w.(wk_key) /\ (o = true -> ~ given_key D w.(wk_key)).
Definition astack (ts : list table_type) (ti : list N) : Prop := length ti = length ts /\ Forall arrt ts.
Definition stack (ts : list table_type) (ti : list N) : Prop :=
  length ti = length ts /\ exists a b, ts = a ++ b /\ Forall arrt a /\ Forall isstd b /\ (length b <= 1)%nat.

Lemma astack_stack : forall ts ti, astack ts ti -> stack ts ti.
Proof. intros ts ti [L A]. split; auto. exists ts, []. rewrite app_nil_r. repeat split; auto. Qed.
Lemma astack_std : forall ts ti t x, astack ts ti -> stack (vpush ts (TStandard t)) (vpush ti x).
Proof. intros ts ti t x [L A]. split; [rewrite !push_len; auto|]. exists ts, [TStandard t]. repeat split; auto. repeat constructor. Qed.
Lemma astack_arr : forall ts ti t x, astack ts ti -> arrt t -> astack (vpush ts t) (vpush ti x).
Proof. intros ts ti t x [L A] T. split; [rewrite !push_len; auto|apply push_forall; auto]. Qed.
Lemma astack_prefix : forall ts ti ts' ti' p, astack ts ti -> ts = ts' ++ p -> length ti' = length ts' -> astack ts' ti'.
Proof. intros ts ti ts' ti' p [L A] -> L'. apply Forall_app in A as [A _]. split; auto. Qed.
Lemma astack_pop : forall ts ti, astack ts ti -> astack (vpop ts) (vpop ti).
Proof. intros ts ti H. destruct (pop_prefix _ ts) as [p E]. eapply astack_prefix; eauto. rewrite !pop_len. destruct H. lia. Qed.
Lemma astack_rev : forall ts ti a b, astack ts ti -> length b = length a -> (exists p, rev ts = p ++ a) -> astack (rev a) (rev b).
Proof.
  intros ts ti a b H L [p E]. apply (astack_prefix _ _ (rev a) (rev b) (rev p) H); [|rewrite !rev_length; auto].
  rewrite <- rev_app_distr, <- E, rev_involutive. auto.
Qed.
Lemma stack_pop : forall ts ti, stack ts ti -> is_top_std_table ts = true -> astack (vpop ts) (vpop ti).
Proof.
  intros ts ti (L & a & b & -> & A & B & L1) H. split; [rewrite !pop_len; lia|].
  destruct b as [|t [|]]; [|rewrite vpop_last; auto|simpl in L1; lia]. rewrite app_nil_r in *.
  destruct (pop_prefix _ a) as [p E]. rewrite E in A. apply Forall_app in A. tauto.
Qed.
Lemma stack_top : forall ts ti, stack ts ti -> is_top_std_table ts = false -> astack ts ti.
Proof.
  intros ts ti (L & a & b & -> & A & B & L1) H. destruct b as [|t b].
  - rewrite app_nil_r in *. split; auto.
  - exfalso. destruct b; [|simpl in L1; lia]. unfold is_top_std_table in H. rewrite vlast_last in H.
    inversion B; subst. destruct t; [discriminate|contradiction].
Qed.

(** ** The key of the stack *)
(** validity, and index, of the array of tables at [k] *)
Definition arr_v (m : vmap) (k : str) (v : bool) : bool :=
  match hget k m with
  | Some hv => match hv.(hv_value), hv.(hv_subkeys) with Some _, _ => false | None, Keys _ => false | None, Count _ => v end
  | None => v
  end.
Definition arr_x (m : vmap) (k : str) (ti : list N) (i : nat) : res N :=
  match hget k m with
  | Some hv => match hv.(hv_subkeys) with Count c => dec_usize o c | Keys _ => vindex ti i end
  | None => vindex ti i
  end.
Definition start_ok (pe : nat) (fk : str) : Prop := (pe = 2%nat \/ pe = 0%nat /\ fk = []) /\ dot_end fk.

Section Key.
  Variables (m : vmap).
  Hypothesis R : rooted m.
  Hypothesis C : counted m.

  Lemma arr_step : forall i pe fk w, bad_name w.(wk_key) -> (o = true -> ~ given_key D w.(wk_key)) -> start_ok pe fk ->
    forall ts ti, nth_error ts i = Some (TArrayOf [w]) -> (i < length ti)%nat ->
    exists x, arr_x m (fk ++ w.(wk_key)) ti i = Ok x /\ forall v pk n, gatk_loop o m ts ti (S n) i pe v fk pk =
      if Nat.ltb i (length ti - 1) then gatk_loop o m ts ti n (S i) 2 (arr_v m (fk ++ w.(wk_key)) v) (((fk ++ w.(wk_key)) ++ idx_str x) ++ lit ".") pk
      else gatk_loop o m ts ti n (S i) 2 (arr_v m (fk ++ w.(wk_key)) v) ((fk ++ w.(wk_key)) ++ idx_str x) (fk ++ w.(wk_key)).
  Proof using R C.
    intros i pe fk w B OV [PE DE] ts ti NE L.
    assert (A : gatk_arr m (skipn pe [root_key; wk_key w]) fk = Ok fk).
    { destruct PE as [->|(-> & ->)]; [reflexivity|]. cbn [skipn gatk_arr app]. destruct R as (v0 & l & E). rewrite E. cbn [hv_subkeys].
      rewrite Bool.orb_true_r. rewrite str_eqb_refl. reflexivity. }
    assert (X : exists d, arr_x m (fk ++ wk_key w) ti i = Ok d).
    { unfold arr_x. destruct (vindex_ok _ ti i L) as (x & X & _). destruct (hget (fk ++ wk_key w) m) as [[v0 sub]|] eqn:E; [|eauto].
      cbn [hv_subkeys]. destruct sub as [c|]; [|eauto]. unfold dec_usize. destruct (c =? 0) eqn:Z; [|eauto]. destruct o; [|eauto].
      exfalso. apply (not_given D fk (wk_key w)); auto; [apply B|]. apply (C _ _ _ E). lia. }
    destruct X as [d X]. exists d. split; [exact X|]. intros v pk n. cbn [gatk_loop]. unfold vindex at 1. rewrite NE. cbn [rbind].
    change (get_last_keys [w]) with [root_key; wk_key w]. rewrite A. cbn [rbind]. change (last [root_key; wk_key w] []) with (wk_key w).
    unfold arr_x in X. rewrite X. cbn [rbind]. rewrite <- !app_assoc. reflexivity.
  Qed.
  Lemma arr_x_push : forall k ti y i, (i < length ti)%nat -> arr_x m k (vpush ti y) i = arr_x m k ti i.
  Proof.
    intros k ti y i L. unfold arr_x. assert (E : vindex (vpush ti y) i = vindex ti i) by (unfold vindex, vpush; rewrite nth_error_app1; auto).
    rewrite E. reflexivity.
  Qed.
  (** the key of arrays of tables, and where it leads a table after them *)
  Lemma arr_walk : forall ts ti u y, length ti = length ts -> Forall arrt ts -> forall n i pe v fk pk,
    (i + S n = length ts)%nat -> start_ok pe fk ->
    exists v' f w x, dot_end f /\ bad_name w /\
      gatk_loop o m ts ti (S n) i pe v fk pk = Ok (v', (f ++ w) ++ idx_str x, f ++ w) /\
      forall n2, gatk_loop o m (vpush ts u) (vpush ti y) (S n + n2) i pe v fk pk =
        gatk_loop o m (vpush ts u) (vpush ti y) n2 (i + S n) 2 v' (((f ++ w) ++ idx_str x) ++ lit ".") pk.
  Proof using R C.
    intros ts ti u y LE AT. induction n; intros i pe v fk pk L ST.
    - destruct (nth_error ts i) as [t|] eqn:NE; [|apply nth_error_None in NE; lia].
      assert (T : arrt t) by (rewrite Forall_forall in AT; apply AT; eapply nth_error_In; eauto). destruct T as (w & -> & B & OV).
      destruct (arr_step i pe fk w B OV ST ts ti NE ltac:(lia)) as (x & X & E).
      assert (NE' : nth_error (vpush ts u) i = Some (TArrayOf [w])) by (unfold vpush; rewrite nth_error_app1 by lia; auto).
      destruct (arr_step i pe fk w B OV ST _ (vpush ti y) NE' ltac:(rewrite push_len; lia)) as (x' & X' & E').
      rewrite arr_x_push in X' by lia. assert (x' = x) by congruence. subst x'.
      exists (arr_v m (fk ++ wk_key w) v), fk, (wk_key w), x. split; [apply ST|]. split; auto. split.
      + rewrite E. destruct (Nat.ltb_spec i (length ti - 1)); [lia|]. reflexivity.
      + intros n2. cbn [Nat.add]. rewrite E'. rewrite push_len. destruct (Nat.ltb_spec i (S (length ti) - 1)); [|lia].
        rewrite Nat.add_1_r. reflexivity.
    - destruct (nth_error ts i) as [t|] eqn:NE; [|apply nth_error_None in NE; lia].
      assert (T : arrt t) by (rewrite Forall_forall in AT; apply AT; eapply nth_error_In; eauto). destruct T as (w & -> & B & OV).
      destruct (arr_step i pe fk w B OV ST ts ti NE ltac:(lia)) as (x & X & E).
      assert (NE' : nth_error (vpush ts u) i = Some (TArrayOf [w])) by (unfold vpush; rewrite nth_error_app1 by lia; auto).
      destruct (arr_step i pe fk w B OV ST _ (vpush ti y) NE' ltac:(rewrite push_len; lia)) as (x' & X' & E').
      rewrite arr_x_push in X' by lia. assert (x' = x) by congruence. subst x'.
      destruct (IHn (S i) 2%nat (arr_v m (fk ++ wk_key w) v) (((fk ++ wk_key w) ++ idx_str x) ++ lit ".") pk) as (v' & f & w' & x' & DE' & B' & E1 & E2);
        [lia|split; [auto|apply dot_end_dot]|].
      exists v', f, w', x'. split; auto. split; auto. split.
      + rewrite E. destruct (Nat.ltb_spec i (length ti - 1)); [|lia]. exact E1.
      + intros n2. change (S (S n) + n2)%nat with (S (S n + n2)). rewrite E'. rewrite push_len.
        destruct (Nat.ltb_spec i (S (length ti) - 1)); [|lia]. rewrite E2. f_equal. lia.
  Qed.

  (** the key of a stack of arrays of tables *)
  Definition base_of (ts : list table_type) (v : bool) (l p : str) : Prop :=
    ts = [] /\ v = true /\ l = [] /\ p = root_key \/
    ts <> [] /\ exists f w x, dot_end f /\ bad_name w /\ p = f ++ w /\ l = p ++ idx_str x.
  Lemma arr_key : forall ts ti, astack ts ti -> exists v l p, get_array_table_key o m ts ti = Ok (v, l, p) /\ base_of ts v l p /\
    forall t y, get_array_table_key o m (vpush ts (TStandard t)) (vpush ti y) =
      let '(v', fk, pk) := gatk_std m (skipn (match ts with [] => 0 | _ => 2 end) (get_last_keys t)) v
                             (match ts with [] => [] | _ => l ++ lit "." end) root_key in
      Ok (v' && negb (key_has_value m (fk ++ last (get_last_keys t) [])), fk ++ last (get_last_keys t) [], pk).
  Proof using R C.
    intros ts ti [L A]. destruct ts as [|t0 ts0].
    - destruct ti; [|discriminate]. exists true, [], root_key. split; [reflexivity|]. split; [left; auto|]. intros t y. unfold vpush. cbn [app].
      unfold get_array_table_key. cbn [length gatk_loop vindex nth_error rbind skipn].
      destruct (gatk_std _ _ _ _ _) as [[a b] c]. reflexivity.
    - set (ts := t0 :: ts0) in *. unfold get_array_table_key.
      assert (ST : start_ok 0 []) by (split; [auto|left; auto]).
      assert (LN : length ti = S (length ts0)) by (rewrite L; reflexivity).
      destruct (arr_walk ts ti t0 0 L A (length ts0) 0 0%nat true [] root_key eq_refl ST) as (v & f & w & x & DE & B & E & _).
      exists v, ((f ++ w) ++ idx_str x), (f ++ w). rewrite LN. split; [exact E|]. split; [right; split; [discriminate|exists f, w, x; auto]|].
      intros t y. destruct (arr_walk ts ti (TStandard t) y L A (length ts0) 0 0%nat true [] root_key eq_refl ST) as (v1 & f1 & w1 & x1 & _ & _ & E1 & E2).
      assert (V1 : v1 = v) by congruence. assert (Q : (f1 ++ w1) ++ idx_str x1 = (f ++ w) ++ idx_str x) by congruence.
      rewrite V1, Q in E2. clear E1 V1 Q. rewrite push_len, LN, <- (Nat.add_1_r (S (length ts0))), E2.
      cbn [gatk_loop Nat.add]. unfold vindex at 1, vpush at 1. rewrite nth_error_app2 by (cbn; lia).
      replace (S (length ts0) - length ts)%nat with 0%nat by (cbn; lia). cbn [nth_error rbind].
      cbn [ts]. destruct (gatk_std _ _ _ _ _) as [[a b] c]. reflexivity.
  Qed.
End Key.

Record K (s : pst) : Prop := {
  c_stack : stack s.(p_tables) s.(p_tindex);
  c_root : rooted s.(p_map);
  c_count : counted s.(p_map);
  c_err : s.(p_array_error) = true -> s.(p_errors) <> [];
  c_ovf : s.(p_ovf) = o }.

Lemma stack_key : forall m ts ti, rooted m -> counted m -> stack ts ti -> exists r, get_array_table_key o m ts ti = Ok r.
Proof.
  intros m ts ti R C (L & a & b & -> & A & B & L1). destruct b as [|t [|]]; [| |simpl in L1; lia].
  - rewrite app_nil_r in *. destruct (arr_key m R C a ti) as (v & l & p & E & _); [split; auto|eauto].
  - inversion B; subst. destruct t as [t|]; [|contradiction].
    assert (NE : ti <> []) by (intros ->; rewrite app_length in L; simpl in L; lia). destruct (exists_last NE) as (ti' & y & ->).
    rewrite !app_length in L. cbn in L. destruct (arr_key m R C a ti') as (v & l & p & _ & _ & E); [split; [lia|auto]|].
    specialize (E t y). unfold vpush in E. rewrite E. destruct (gatk_std _ _ _ _ _) as [[? ?] ?]. eauto.
Qed.
Lemma stack_full : forall m ts ti kc, rooted m -> counted m -> stack ts ti -> exists r, get_full_key o m ts ti kc = Ok r.
Proof.
  intros m ts ti kc R C S. unfold get_full_key. destruct (stack_key m ts ti R C S) as [[[a b] c] ->]. cbn [rbind].
  destruct (get_keychain_key kc). destruct b; eauto.
Qed.
Lemma stack_full_k : forall s kc, K s -> exists r, get_full_key s.(p_ovf) s.(p_map) s.(p_tables) s.(p_tindex) kc = Ok r.
Proof. intros s kc [S R C _ ->]. apply stack_full; auto. Qed.

Lemma keyval_keys_calm : forall s kc x, K s -> s.(p_keychain) = kc ++ [x] -> put_ok D kc x ->
  exists fk pk, keyval_keys s = Ok (fk, pk) /\ given fk /\ match x with KIndex _ => of_array D pk | _ => True end.
Proof.
  intros s kc x [S R C _ O] E PO. destruct (chain_keys D kc x PO) as (ck & pck & CK & GV & BD).
  assert (Z : exists fk pk v, get_full_key (p_ovf s) (p_map s) (p_tables s) (p_tindex s) (p_keychain s) = Ok (v, fk, pk) /\
    given fk /\ match x with KIndex _ => of_array D pk | _ => True end).
  { unfold get_full_key. rewrite O. destruct (stack_key _ _ _ R C S) as [[[v ak] p] ->]. cbn [rbind]. rewrite E, CK.
    destruct ak as [|c ak]; [do 3 eexists; split; [reflexivity|]; auto|]. do 3 eexists. split; [reflexivity|].
    split; [apply given_under; auto|]. destruct x; auto. destruct pck as [|c' pck]; [destruct (array_ne _ _ BD eq_refl)|].
    apply array_under. auto. }
  unfold keyval_keys. destruct (p_last_table s) as [[t|t]|].
  - unfold get_full_key. rewrite gatk_push by apply S. destruct Z as (fk & pk & v & Z & GV' & BD'). unfold get_full_key in Z. rewrite Z.
    cbn [rbind]. eauto.
  - destruct Z as (fk & pk & v & -> & GV' & BD'). cbn [rbind]. eauto.
  - rewrite E, CK. do 2 eexists. split; [reflexivity|]. split; auto. destruct x; auto.
    destruct pck as [|c' pck]; [destruct (array_ne _ _ BD eq_refl)|exact BD].
Qed.
Lemma good_valued : forall c v, to_val c.(c_val) = Ok v -> valued (Some c).
Proof. intros c v H E. rewrite E in H. discriminate. Qed.
Lemma insert_calm : forall s kc x c v, K s -> s.(p_keychain) = kc ++ [x] -> put_ok D kc x -> to_val c.(c_val) = Ok v ->
  exists s', insert_keyval_into_map s c = Ok s' /\ K s' /\ s'.(p_keychain) = s.(p_keychain).
Proof.
  intros s kc x c v H E PO TV. unfold insert_keyval_into_map. destruct (keyval_keys_calm _ _ _ H E PO) as (fk & pk & -> & GV & BD). cbn [rbind].
  destruct H as [S R C ER O]. rewrite E.
  assert (M : forall m, rooted m -> counted m -> exists m', update_parent m pk (kc ++ [x]) = Ok m' /\ rooted m' /\ counted m')
    by (intros; apply update_calm; auto).
  destruct (hget fk (p_map s)) as [[[c0|] sub]|] eqn:HG.
  - rewrite TV. cbn [rbind]. eexists. split; [reflexivity|]. split; auto. split; auto. intros _. cbn. unfold vpush. destruct (p_errors s); discriminate.
  - destruct (M (hput fk (HashValue (Some c) sub) (p_map s))) as (m' & -> & R' & C').
    { eapply rooted_same; eauto. cbn. destruct sub; auto. }
    { apply counted_put; auto. intros n ->. destruct (C _ _ _ HG) as [_ X]. split; auto. left. eapply good_valued; eauto. }
    cbn [rbind]. eexists. split; [reflexivity|]. split; auto. split; auto.
  - match goal with |- context [update_parent ?x _ _] => destruct (M x) as (m' & -> & R' & C') end.
    { apply rooted_new; auto. }
    { destruct (c_val c) eqn:CV; try (apply counted_put; auto; intros n X; inversion X; subst; split; auto; left; eapply good_valued; rewrite CV; eauto; fail). }
    cbn [rbind]. eexists. split; [reflexivity|]. split; auto. split; auto.
Qed.

Lemma calm_kept : kept D K.
Proof.
  split.
  - intros kc s []. split; auto.
  - intros e s []. split; auto. intros _. cbn. unfold vpush. destruct (p_errors s); discriminate.
  - intros a s []. split; auto.
  - intros a s []. split; auto.
  - intros a s []. split; auto.
  - intros e s [] NE. split; auto.
  - intros s []. auto.
  - exact stack_full_k.
  - exact insert_calm.
Qed.
Local Notation H := (H K).

(** ** The implicit tables of a header *)
(** no value at the prefixes of the names [ks] under [fk] *)
Fixpoint clear_path (m : vmap) (fk : str) (ks : list str) : Prop :=
  match ks with
  | [] => True
  | [_] => True
  | k :: ks' => key_has_value m (fk ++ k) = false /\ clear_path m ((fk ++ k) ++ lit ".") ks'
  end.
Lemma clear_calmer : forall m m', calmer m m' -> forall ks fk, clear_path m fk ks -> clear_path m' fk ks.
Proof.
  intros m m' C. induction ks as [|k [|k2 ks] IH]; intros fk X; cbn [clear_path] in *; auto. destruct X as [X1 X2]. split; [apply C; auto|]. apply IH. auto.
Qed.
Lemma std_walk : forall m ks v fk pk v' fk' pk', Forall name_text ks -> dot_end fk -> gatk_std m ks v fk pk = (v', fk', pk') ->
  dot_end fk' /\ (v' = true -> v = true /\ clear_path m fk ks) /\
  (pk' = pk \/ exists p n, pk' = p ++ n /\ dot_end p /\ In n (removelast ks) /\ (v' = true -> key_has_value m pk' = false)).
Proof.
  intros m. induction ks as [|k [|k2 ks] IH]; intros v fk pk v' fk' pk' F DE E.
  - cbn in E. inversion E; subst. cbn. auto.
  - cbn in E. inversion E; subst. cbn. auto.
  - change (gatk_std m (k :: k2 :: ks) v fk pk) with (if str_eqb k root_key then gatk_std m (k2 :: ks) v fk pk else
      gatk_std m (k2 :: ks) (v && negb (key_has_value m (fk ++ k))) ((fk ++ k) ++ lit ".") match ks with [] => fk ++ k | _ => pk end) in E.
    inversion F as [|? ? N F']; subst. assert (NR : str_eqb k root_key = false) by (apply str_eqb_neq, (name_not_root []); auto). rewrite NR in E.
    apply IH in E as (D1 & C1 & P1); auto; [|apply dot_end_dot]. split; auto. split.
    + intros V. destruct (C1 V) as [X Y]. apply andb_prop in X as [X1 X2]. split; auto. cbn [clear_path]. split; auto.
      destruct (key_has_value m (fk ++ k)); auto; discriminate.
    + destruct P1 as [P1|(p & n & P1 & DP & I & P2)].
      * destruct ks as [|k3 ks]; [|auto]. right. exists fk, k. split; auto. split; auto. split; [left; auto|].
        intros V. rewrite P1. destruct (C1 V) as [X _]. apply andb_prop in X as [_ X]. destruct (key_has_value m (fk ++ k)); auto; discriminate.
      * right. exists p, n. split; auto. split; auto. split; auto. right. exact I.
Qed.

Lemma ait_calm : forall ks m first lk, rooted m -> counted m ->
  dot_end (if str_eqb lk root_key then [] else lk ++ lit ".") ->
  (first = false -> forall hv c, hget lk m = Some hv -> hv.(hv_subkeys) <> Count c) ->
  Forall (fun k => name_text k.(wk_key)) ks -> (forall n, In n (removelast (map wk_key ks)) -> ~ bad_name n) ->
  clear_path m (if str_eqb lk root_key then [] else lk ++ lit ".") (map wk_key ks) ->
  exists m', ait_loop m ks first lk = Ok m' /\ rooted m' /\ counted m' /\ calmer m m'.
Proof.
  induction ks as [|k ks IH]; intros m first lk R C DE FI F NB CL; cbn [ait_loop].
  { exists m. split; auto. split; auto. split; auto. apply calmer_refl. }
  inversion F as [|? ? N F']; subst.
  assert (X : exists m1 ins first', match hget lk m with
    | Some hv => match hv.(hv_subkeys) with
        | Keys l => let (l', ins) := vinsert l k.(wk_key) in Ok (hput lk (HashValue hv.(hv_value) (Keys l')) m, ins, false)
        | Count c => if first then Ok (hput lk (HashValue hv.(hv_value) (Count (c + 1))) m, true, false) else Panic
        end
    | None => Ok (m, false, first)
    end = Ok (m1, ins, first') /\ rooted m1 /\ counted m1 /\ calmer m m1).
  { destruct (hget lk m) as [hv|] eqn:E; [|do 3 eexists; split; [reflexivity|split; [auto|split; [auto|apply calmer_refl]]]].
    destruct (hv_subkeys hv) as [c|l] eqn:S.
    - destruct first; [|destruct (FI eq_refl _ _ eq_refl S)]. do 3 eexists. split; [reflexivity|]. split; [eapply rooted_same; eauto; rewrite S; auto|].
      split; [eapply counted_more; eauto|apply calmer_same; auto].
    - destruct (vinsert l (wk_key k)) as [l' ins]. do 3 eexists. split; [reflexivity|]. split; [eapply rooted_same; eauto; rewrite S; auto|].
      split; [apply counted_keys; auto|apply calmer_same; auto]. }
  destruct X as (m1 & ins & first' & X & R1 & C1 & M1). rewrite X. cbn [rbind]. clear X. destruct ks as [|k2 ks]; [eauto|].
  set (base := if str_eqb lk root_key then [] else lk ++ lit ".") in *.
  assert (LK : (if str_eqb lk root_key then k.(wk_key) else lk ++ lit "." ++ k.(wk_key)) = base ++ k.(wk_key)).
  { unfold base. destruct (str_eqb lk root_key); [reflexivity|]. rewrite <- app_assoc. reflexivity. }
  rewrite LK. set (lk' := base ++ k.(wk_key)).
  assert (NR : str_eqb lk' root_key = false) by (apply str_eqb_neq, name_not_root; auto).
  cbn [map clear_path] in CL. destruct CL as [CV CL]. fold lk' in CV, CL.
  assert (NB1 : ~ bad_name k.(wk_key)) by (apply NB; cbn; auto).
  set (m2 := if ins then hput lk' hv_none_keys m1 else m1).
  assert (R2 : rooted m2) by (unfold m2; destruct ins; auto; apply rooted_put; eauto).
  assert (C2 : counted m2) by (unfold m2; destruct ins; auto; apply counted_keys; auto).
  assert (M2 : calmer m m2).
  { eapply calmer_trans; [exact M1|]. unfold m2. destruct ins; [|apply calmer_refl]. apply calmer_put. intros _ Z. exact Z. }
  destruct (IH m2 first' lk') as (m' & E & R' & C' & M'); auto.
  - rewrite NR. apply dot_end_dot.
  - intros _ hv c HG. eapply no_count; eauto. apply not_bad; auto.
  - intros n I. apply NB. cbn [map]. right. exact I.
  - rewrite NR. eapply clear_calmer; eauto.
  - exists m'. split; auto. split; auto. split; auto. eapply calmer_trans; eauto.
Qed.

(** the names of a header that are looked for under a stack of arrays of tables *)
Definition below (ts : list table_type) {A} (l : list A) : list A := match ts with [] => l | _ => tl l end.
Definition base (ts : list table_type) (l : str) : str := match ts with [] => [] | _ => l ++ lit "." end.
Lemma base_dot : forall ts l, dot_end (base ts l).
Proof. intros [|t ts] l; [left; reflexivity|apply dot_end_dot]. Qed.
Lemma incl_below : forall ts (l : list str) n, In n (removelast (below ts l)) -> In n (removelast l).
Proof. intros [|t ts] l n I; auto. cbn in I. destruct l as [|x [|y l]]; auto. right. exact I. Qed.
Lemma forall_below : forall ts A (Q : A -> Prop) l, Forall Q l -> Forall Q (below ts l).
Proof. intros [|t ts] A Q l F; auto. destruct F; constructor || auto. Qed.

Lemma implicit_calm : forall m ts ti t v l p, rooted m -> counted m -> astack ts ti ->
  get_array_table_key o m ts ti = Ok (v, l, p) -> base_of ts v l p ->
  Forall (fun k => name_text k.(wk_key)) (tt_table t) -> (forall n, In n (removelast (map wk_key (tt_table t))) -> ~ bad_name n) ->
  (v = true -> clear_path m (base ts l) (below ts (map wk_key (tt_table t)))) ->
  exists m', add_implicit_tables o m ts ti t = Ok m' /\ rooted m' /\ counted m' /\ calmer m m'.
Proof.
  intros m ts ti t v l p R C A KEY BO F NB CL. unfold add_implicit_tables. rewrite KEY. cbn [rbind].
  destruct v; cbn [negb]; [|exists m; split; auto; split; auto; split; auto; apply calmer_refl]. specialize (CL eq_refl).
  destruct BO as [(-> & _ & -> & _)|(NE & f & w & x & DF & B & -> & ->)].
  - cbn [vlast app]. rewrite str_eqb_refl. cbn [Nat.sub skipn]. apply ait_calm; auto; rewrite ?str_eqb_refl; auto; [left; auto|discriminate].
  - set (l := (f ++ w) ++ idx_str x) in *.
    assert (NR : str_eqb l root_key = false).
    { apply str_eqb_neq. unfold l, idx_str. change root_key with (lit "$Root" ++ [36]). rewrite !app_assoc. intros E.
      change (lit "]") with [93] in E. apply app_inj_tail in E as [_ E]. discriminate. }
    assert (VL : exists u, vlast ts = Some u /\ length (tt_table u) = 1%nat).
    { destruct (exists_last NE) as (a & u & E). rewrite E, vlast_last. exists u. split; auto. destruct A as [_ A]. rewrite E in A.
      apply Forall_app in A as [_ A]. inversion A as [|? ? AT]; subst. destruct AT as (w0 & -> & _). reflexivity. }
    destruct VL as (u & -> & L1). rewrite NR, L1. destruct ts as [|t0 ts0]; [congruence|]. cbn [below base] in CL.
    assert (TL : skipn 1 (tt_table t) = tl (tt_table t)) by (destruct (tt_table t); reflexivity). rewrite TL.
    apply ait_calm; auto; rewrite ?NR.
    + apply dot_end_dot.
    + discriminate.
    + destruct (tt_table t); [constructor|inversion F; auto].
    + intros n I. apply NB. apply (incl_below (t0 :: ts0)). cbn [below]. destruct (tt_table t); auto.
    + destruct (tt_table t); auto.
Qed.
Lemma table_set_calm : forall m ts ti k, length ti = length ts -> rooted m -> counted m ->
  exists m', add_to_table_set m ts ti k = Ok m' /\ rooted m' /\ counted m' /\ calmer m m'.
Proof.
  intros m ts ti k L R C. unfold add_to_table_set. destruct (gkp_ok ts ti ltac:(lia)) as [pk ->]. cbn [rbind].
  assert (Z : exists m', Ok m = Ok m' /\ rooted m' /\ counted m' /\ calmer m m') by (exists m; split; auto; split; auto; split; auto; apply calmer_refl).
  destruct (hget pk m) as [hv|] eqn:E; auto. destruct (hv_subkeys hv) eqn:Q; auto.
  eexists. split; [reflexivity|]. split; [eapply rooted_same; eauto; rewrite Q; auto|]. split; [apply counted_keys; auto|apply calmer_same; auto].
Qed.
Lemma increment_calm : forall m ts ti, astack ts ti -> ts <> [] -> rooted m -> counted m ->
  exists m' ti', increment_array_table_index m ts ti = Ok (m', ti') /\ rooted m' /\ counted m' /\ astack ts ti'.
Proof.
  intros m ts ti [L A] NE R C. unfold increment_array_table_index. destruct (gkp_ok ts ti ltac:(lia)) as [pk ->]. cbn [rbind].
  destruct ti as [|x0 ti0] using rev_ind; [destruct ts; [congruence|discriminate]|]. rewrite vlast_last. clear IHti0.
  do 2 eexists. split; [reflexivity|].
  assert (L' : length (vpush (vpop (ti0 ++ [x0])) (x0 + 1)) = length ts) by (rewrite push_len, vpop_last, <- L, app_length; simpl; lia).
  destruct (hget pk m) as [hv|] eqn:E; [|split; auto; split; auto; split; auto].
  destruct (hv_subkeys hv) eqn:Q; [|split; auto; split; auto; split; auto].
  split; [eapply rooted_same; eauto; rewrite Q; auto|]. split; [eapply counted_more; eauto|split; auto].
Qed.

(** ** The actions on headers *)
Lemma drop_calm : forall n s, K s -> length s.(p_keychain) = n -> exists s', keychain_drop n s = Ok s' /\ H [] s'.
Proof.
  intros n s HK L. unfold keychain_drop. rewrite L, Nat.ltb_irrefl, Nat.sub_diag. eexists. split; [reflexivity|]. split; [apply (k_chain D K calm_kept); auto|reflexivity].
Qed.
Definition path_ok (k : str) (subkeys : list wskey) : Prop :=
  name_text k /\ Forall (fun x => name_text x.(wk_key)) subkeys /\
  forall n, In n (removelast (k :: map wk_key subkeys)) -> ~ bad_name n.

Lemma std_calm : forall w1 w2 k subkeys s, K s -> length s.(p_keychain) = S (length subkeys) -> path_ok k subkeys ->
  exists s' t, std_table_act w1 w2 k subkeys s = Ok (s', t) /\ H [] s'.
Proof.
  intros w1 w2 k subkeys s H0 LC (NT & FS & NB). unfold std_table_act.
  destruct (drop_calm _ s H0 LC) as (s1 & -> & H1). cbn [rbind]. clear H0 LC s. rename s1 into s. destruct H1 as [[SK R C E O] CH].
  set (tbl := table_new _ _ _). set (res := TStandard tbl).
  assert (FT : Forall (fun x => name_text x.(wk_key)) tbl) by (constructor; auto).
  (* the top is removed *)
  assert (A : exists ts ti, (if is_top_std_table (p_tables s) || equal_key_length res (p_tables s)
    then (vpop (p_tables s), vpop (p_tindex s)) else (p_tables s, p_tindex s)) = (ts, ti) /\ astack ts ti).
  { destruct (is_top_std_table (p_tables s)) eqn:TS; cbn [orb].
    - do 2 eexists. split; [reflexivity|]. eapply stack_pop; eauto.
    - pose proof (stack_top _ _ SK TS). destruct (equal_key_length _ _); do 2 eexists; (split; [reflexivity|]); auto.
      apply astack_pop; auto. }
  destruct A as (ts & ti & -> & A).
  (* and what is not a super-table *)
  assert (B : exists ts2 ti2, match vlast ts with
    | None => (ts, ti)
    | Some l => if str_eqb (format_tt_keys res) (format_tt_keys l) then (ts, ti)
        else if is_subtable_of res l then (ts, ti)
        else let (a, b) := pop_until_sub res (rev ts) (rev ti) in (rev a, rev b)
    end = (ts2, ti2) /\ astack ts2 ti2).
  { destruct (vlast ts); eauto. destruct (str_eqb _ _); eauto. destruct (is_subtable_of _ _); eauto.
    destruct (pop_until_sub res (rev ts) (rev ti)) as [a b] eqn:Q. apply until_sub in Q as [L P]; [|rewrite !rev_length; destruct A; auto].
    do 2 eexists. split; [reflexivity|]. eapply astack_rev; eauto. }
  destruct B as (ts2 & ti2 & -> & B). clear A ts ti. rename ts2 into ts, ti2 into ti.
  destruct (arr_key (p_map s) R C ts ti B) as (v & l & p & AK & BO & KEY). specialize (KEY tbl 0). fold res in KEY.
  set (names := map wk_key tbl).
  assert (SKP : forall v0 pk0, gatk_std (p_map s) (skipn (match ts with [] => 0 | _ => 2 end) (get_last_keys tbl)) v0 (base ts l) pk0 =
    gatk_std (p_map s) (below ts names) v0 (base ts l) pk0).
  { intros v0 pk0. destruct ts; [|reflexivity]. unfold get_last_keys, names, tbl, table_new. cbn [skipn map]. cbn [below wk_key].
    change (gatk_std (p_map s) (root_key :: k :: map wk_key subkeys) v0 (base [] l) pk0) with
      (if str_eqb root_key root_key then gatk_std (p_map s) (k :: map wk_key subkeys) v0 (base [] l) pk0 else
       gatk_std (p_map s) (k :: map wk_key subkeys) (v0 && negb (key_has_value (p_map s) (base [] l ++ root_key))) ((base [] l ++ root_key) ++ lit ".")
         match map wk_key subkeys with [] => base [] l ++ root_key | _ => pk0 end).
    rewrite str_eqb_refl. reflexivity. }
  change (match ts with [] => [] | _ => l ++ lit "." end) with (base ts l) in KEY. rewrite SKP in KEY.
  destruct (gatk_std (p_map s) (below ts names) v (base ts l) root_key) as [[v' fk'] pk] eqn:GS.
  assert (FN : Forall name_text names) by (apply Forall_map; auto).
  apply std_walk in GS as (DF & CL & PK); [|apply forall_below; auto|apply base_dot].
  set (tk := fk' ++ last (get_last_keys tbl) []) in *. rewrite O, KEY. cbn [rbind].
  assert (NB' : forall n, In n (removelast (below ts names)) -> name_text n /\ ~ bad_name n).
  { intros n I. apply incl_below in I. split; [|apply NB; exact I]. rewrite Forall_forall in FN. apply FN.
    destruct (@exists_last _ names ltac:(discriminate)) as (a & z & Z). rewrite Z in *. rewrite removelast_last in I. apply in_or_app. auto. }
  assert (PKC : forall m' hv c, v' = true -> rooted m' -> counted m' -> calmer (p_map s) m' -> hget pk m' = Some hv -> hv.(hv_subkeys) <> Count c).
  { intros m' hv c V' R' C' M' HG. destruct PK as [->|(q & n & -> & DQ & I & PV')].
    - destruct R' as (v0 & l0 & R'). rewrite R' in HG. inversion HG; subst. discriminate.
    - destruct (NB' n I). eapply no_count; eauto. apply not_bad; auto. }
  match goal with |- context [rbind ?x _] => assert (Z : exists e tk' pk', x = Ok (e, tk', pk') /\ (e = false -> tk' = tk /\ pk' = pk /\ v' = true /\ key_has_value (p_map s) tk = false)) end.
  { match goal with |- context [if ?b then _ else _] => destruct b; [do 3 eexists; split; [reflexivity|discriminate]|] end.
    destruct (v' && negb (key_has_value (p_map s) tk)) eqn:VD; cbn [negb]; [|do 3 eexists; split; [reflexivity|discriminate]].
    apply andb_prop in VD as [V1 V2]. assert (V3 : key_has_value (p_map s) tk = false) by (destruct (key_has_value (p_map s) tk); auto; discriminate).
    assert (KH : exists b, key_has_children_with_values (p_map s) pk = Ok b).
    { unfold key_has_children_with_values. destruct (str_eqb pk root_key); eauto. destruct (hget pk (p_map s)) as [hv|] eqn:HG; eauto.
      destruct (hv_subkeys hv) eqn:Q; eauto. exfalso. eapply (PKC (p_map s)); eauto. apply calmer_refl. }
    destruct KH as [b ->]. cbn [rbind]. destruct b; do 3 eexists; (split; [reflexivity|]); auto; discriminate. }
  destruct Z as (e & tk' & pk' & -> & Z). cbn [rbind]. destruct e.
  - do 2 eexists. split; [reflexivity|]. split; [|exact CH]. split; cbn; auto; [apply astack_stack; auto|]. intros _. unfold vpush. destruct (p_errors s); discriminate.
  - destruct (Z eq_refl) as (-> & -> & V' & NV). clear Z.
    destruct (implicit_calm (p_map s) ts ti res v l p R C B AK BO FT NB) as (m1 & -> & R1 & C1 & M1).
    { intros _. apply CL. auto. }
    cbn [rbind]. match goal with |- context [add_to_table_set m1 ts ti ?x] => destruct (table_set_calm m1 ts ti x) as (m2 & -> & R2 & C2 & M2) end; auto; [apply B|].
    cbn [rbind]. unfold new_cell. cbn [c_id].
    match goal with |- context [hget pk ?x] => assert (R3 : rooted x /\ counted x /\ calmer m2 x) end.
    { destruct (hget tk m2) as [[v0 sub]|] eqn:Q; cbn [hv_subkeys].
      - split; [eapply rooted_same; eauto; cbn; destruct sub; auto|]. split.
        + apply counted_put; auto. intros c ->. destruct (C2 _ _ _ Q) as [X Y]. split; auto. destruct X as [X|X]; auto.
          exfalso. eapply no_value; [|exact Q|exact X]. apply M2, M1. exact NV.
        + apply calmer_put. intros _ X. apply X. reflexivity.
      - split; [apply rooted_new; auto|]. split; [apply counted_keys; auto|]. apply calmer_put. intros _ X. apply X. reflexivity. }
    destruct R3 as (R3 & C3 & M3). set (m3 := match hget tk m2 with Some hv => _ | None => _ end) in *.
    assert (M : calmer (p_map s) m3) by (eapply calmer_trans; [exact M1|]; eapply calmer_trans; eauto).
    destruct (hget pk m3) as [hv|] eqn:Q.
    + destruct (hv_subkeys hv) as [c|ll] eqn:QS; [exfalso; eapply (PKC m3); eauto|]. cbn [rbind]. do 2 eexists. split; [reflexivity|].
      split; [|exact CH]. split; cbn; auto; [apply astack_std; auto| |apply counted_keys; auto|discriminate].
      eapply rooted_same; eauto. rewrite QS. auto.
    + cbn [rbind]. do 2 eexists. split; [reflexivity|]. split; [|exact CH]. split; cbn; auto; [apply astack_std; auto|discriminate].
Qed.

Lemma arr_calm : forall w1 w2 k s, K s -> length s.(p_keychain) = 1%nat -> bad_name k -> (o = true -> ~ given_key D k) ->
  exists s' t, array_table_act w1 w2 k [] s = Ok (s', t) /\ H [] s'.
Proof.
  intros w1 w2 k s H0 LC BN OV. unfold array_table_act. cbn [length].
  destruct (drop_calm _ s H0 LC) as (s1 & -> & H1). cbn [rbind]. clear H0 LC s. rename s1 into s. destruct H1 as [[SK R C E O] CH].
  set (res := TArrayOf _). assert (AT : arrt res) by (eexists; split; [reflexivity|]; split; auto).
  assert (FT : Forall (fun x => name_text x.(wk_key)) (tt_table res)) by (constructor; [apply BN|constructor]).
  assert (A : exists ts ti, (if is_top_std_table (p_tables s)
    then (vpop (p_tables s), vpop (p_tindex s)) else (p_tables s, p_tindex s)) = (ts, ti) /\ astack ts ti).
  { destruct (is_top_std_table (p_tables s)) eqn:TS; do 2 eexists; (split; [reflexivity|]).
    - eapply stack_pop; eauto.
    - eapply stack_top; eauto. }
  destruct A as (ts & ti & -> & A). cbn [p_map set_array_error]. rewrite O.
  assert (IMP : forall m ts ti, rooted m -> counted m -> astack ts ti -> exists m', add_implicit_tables o m ts ti res = Ok m' /\ rooted m' /\ counted m').
  { intros m0 ts0 ti0 R0 C0 A0. destruct (arr_key m0 R0 C0 ts0 ti0 A0) as (v & l & p & AK & BO & _).
    destruct (implicit_calm m0 ts0 ti0 res v l p R0 C0 A0 AK BO FT) as (m' & E' & R' & C' & _).
    - intros n [].
    - intros _. destruct ts0; exact I.
    - eauto. }
  match goal with |- context [rbind ?x _] => assert (B : exists m2 ts2 ti2, x = Ok (m2, ts2, ti2) /\ astack ts2 ti2 /\ ts2 <> [] /\ rooted m2 /\ counted m2) end.
  { assert (INC : forall m ts ti, astack ts ti -> ts <> [] -> rooted m -> counted m -> exists m' ti',
      increment_array_table_index m ts ti = Ok (m', ti') /\ rooted m' /\ counted m' /\ astack ts ti') by (intros; apply increment_calm; auto).
    assert (PNE : forall l : list table_type, vpush l res <> []) by (intros l X; apply app_eq_nil in X as [_ X]; discriminate).
    destruct (vlast ts) as [l|] eqn:VL.
    - assert (NE : ts <> []) by (destruct ts; discriminate). destruct (str_eqb _ _).
      + destruct (INC (p_map s) ts ti A NE R C) as (m' & ti' & -> & R' & C' & A'). cbn [rbind]. eauto 10.
      + destruct (is_subtable_of res l).
        * destruct (IMP (p_map s) ts ti R C A) as (m' & -> & R' & C'). cbn [rbind]. do 3 eexists. split; [reflexivity|]. split; [apply astack_arr; auto|auto].
        * destruct (pop_until_key _ (rev ts) (rev ti)) as [a b] eqn:Q.
          apply until_key in Q as [L P]; [|rewrite !rev_length; destruct A; auto].
          pose proof (astack_rev _ _ _ _ A L P) as A2. destruct (rev a) as [|t0 a0] eqn:RA.
          -- destruct (IMP (p_map s) _ _ R C A2) as (m' & -> & R' & C'). cbn [rbind].
             assert (A3 : astack (vpush [] res) (vpush (rev b) 0)) by (apply astack_arr; auto).
             destruct (gkp_ok (vpush [] res) (vpush (rev b) 0)) as [pk ->]; [destruct A3; lia|]. cbn [rbind].
             destruct (hmem pk m'); [|eauto 10].
             destruct (INC m' _ _ A3 (PNE _) R' C') as (m'' & ti' & -> & R'' & C'' & A'). cbn [rbind]. eauto 10.
          -- destruct (INC (p_map s) _ _ A2 ltac:(discriminate) R C) as (m' & ti' & -> & R' & C' & A'). cbn [rbind].
             do 3 eexists. split; [reflexivity|]. split; auto. split; auto. discriminate.
    - destruct (IMP (p_map s) ts ti R C A) as (m' & -> & R' & C'). cbn [rbind]. do 3 eexists. split; [reflexivity|]. split; [apply astack_arr; auto|auto]. }
  destruct B as (m2 & ts2 & ti2 & -> & B & NE & R2 & C2). cbn [rbind].
  destruct (arr_key m2 R2 C2 _ _ B) as (vd & fk & pk & -> & BO & _). cbn [rbind].
  destruct BO as [(X & _)|(_ & f & w & x & DF & BW & PK & FK)]; [congruence|].
  destruct vd; cbn [negb].
  - do 2 eexists. split; [reflexivity|]. split; [|exact CH].
    assert (R3 : rooted (if hmem pk m2 then m2 else hput pk hv_one_count m2)).
    { destruct (hmem pk m2) eqn:HM; auto. apply rooted_new; auto. unfold hmem, is_some in HM. destruct (hget pk m2); [discriminate|auto]. }
    split; cbn; auto; [apply astack_stack; auto|apply rooted_put; eauto| |discriminate].
    apply counted_keys. destruct (hmem pk m2); auto. apply counted_put; auto. intros c X. inversion X; subst. split; [|lia].
    right. apply name_bad; auto.
  - do 2 eexists. split; [reflexivity|]. split; [|exact CH]. split; cbn; auto; [apply astack_stack; auto|discriminate].
Qed.

Section Doc.
Hypothesis CALM : calm_headers o D.
Lemma std_head : forall b w1 w2 k l s, line_at D b -> opens_with b (lit "[") (lit "]") k (map tri l) -> K s ->
  length s.(p_keychain) = S (length l) -> exists s' t, std_table_act w1 w2 k l s = Ok (s', t) /\ H [] s'.
Proof using CALM.
  intros b w1 w2 k l s LA OW K1 L1. apply std_calm; auto. destruct (CALM b k (map tri l) LA) as [_ X]. specialize (X OW).
  destruct OW as (v & v1 & v2 & y & E & B & B1 & B2 & NT & T). split; auto. split.
  - rewrite Forall_map in T. eapply Forall_impl; [|exact T]. intros a (_ & _ & Z). exact Z.
  - intros n I0. specialize (X n). rewrite map_map in X. cbn in X. destruct (X I0) as [X1 X2]. intros [_ [Z|Z]]; [exact (X1 Z)|exact (X2 Z)].
Qed.
Lemma arr_head : forall b w1 w2 k l s, line_at D b -> opens_with b (lit "[[") (lit "]]") k (map tri l) -> K s ->
  length s.(p_keychain) = S (length l) -> exists s' t, array_table_act w1 w2 k l s = Ok (s', t) /\ H [] s'.
Proof using CALM.
  intros b w1 w2 k l s LA OW K1 L1. destruct (CALM b k (map tri l) LA) as [X _]. destruct (X OW) as [X1 X2]. apply map_eq_nil in X1. subst l.
  apply arr_calm; auto. split; [destruct OW as (v & v1 & v2 & y & E & B & B1 & B2 & NT & T); auto|]. right. exists b. auto.
Qed.
Lemma toml_safe : forall s, H [] s -> wok (toml_p s D) K (fun _ s' _ => K s').
Proof using CALM. exact (toml_calm D K calm_kept std_head arr_head). Qed.
End Doc.
End Calm.

Lemma k_init : forall o i, H (K o i) [] (new_parser o).
Proof.
  intros o i. split; [|reflexivity]. split; cbn; auto; try discriminate.
  - apply astack_stack. split; auto.
  - exists None, []. reflexivity.
  - intros k v c E. cbn in E. match type of E with (if ?b then _ else _) = _ => destruct b; inversion E end.
Qed.
Lemma parse_calm : forall o i, calm_headers o i -> exists s r, parse (new_parser o) i = Ok (s, r).
Proof.
  intros o i C. pose proof (toml_safe o i C _ (k_init o i)) as T. unfold wok in T. unfold parse.
  destruct (toml_p (new_parser o) i) as [[s1 r1]| |] eqn:E; cbn [rbind]; [|contradiction|exfalso; eapply nf_toml; eauto].
  destruct r1; do 2 eexists; reflexivity.
Qed.
Lemma one_name_calm : forall o i, one_name_headers o i -> calm_headers o i.
Proof.
  intros o i ON b n more LA. destruct (ON b LA) as [ND NA].
  assert (X : forall h h', h = lit "[" \/ h = lit "[[" -> opens_with b h h' n more -> more = []).
  { intros h h' HH (w & w1 & w2 & y & E & B & B1 & B2 & NT & F). destruct more as [|[[a c] k] more]; auto. exfalso. apply ND.
    inversion F as [|? ? (F1 & F2 & F3) F']; subst. exists w, h, w1, n, a, (c ++ k ++ concat (map name_after more) ++ w2 ++ h' ++ y).
    split; [|auto 10]. cbn [map concat]. unfold name_after at 1. cbn [fst snd]. rewrite <- !app_assoc. reflexivity. }
  split.
  - intros OW. split; [eapply X; eauto|]. intros O. exfalso. apply (NA O). destruct OW as (w & w1 & w2 & y & E & B & _). eexists w, _. split; [exact E|auto].
  - intros OW x I. rewrite (X _ _ (or_introl eq_refl) OW) in I. destruct I.
Qed.

(** ** A check that implies the condition on headers, for bare names (used for examples) *)
Fixpoint tails (i : str) : list str := i :: match i with [] => [] | _ :: i' => tails i' end.
Definition after (n t : str) : option str := if starts_with n t then Some (past_blanks (skipn (length n) t)) else None.
Definition given_b (i n : str) : bool := existsb (fun t => match after n t with Some (61 :: _) => true | _ => false end) (tails i).
Definition array_key_b (i n : str) : bool :=
  existsb (fun t => match after n t with Some (61 :: r) => match past_blanks r with 91 :: _ => true | _ => false end | _ => false end) (tails i).
Definition array_name_b (i n : str) : bool :=
  existsb (fun b => match past_blanks b with
    | 91 :: 91 :: r => match after n (past_blanks r) with Some (93 :: _) => true | _ => false end
    | _ => false
    end) (i :: heads i).
Fixpoint split_dots (u : str) : list str :=
  match u with
  | [] => [[]]
  | c :: u' => if c =? 46 then [] :: split_dots u' else match split_dots u' with x :: l => (c :: x) :: l | [] => [[c]] end
  end.
Definition header_names (r : str) : list str := split_dots (filter (fun c => negb ((c =? 9) || (c =? 32))) (upto 93 r)).
Definition calm_line (ovf : bool) (i b : str) : bool :=
  match past_blanks b with
  | 91 :: 91 :: r => negb (existsb (fun c => (c =? 46) || (c =? 34)) (upto 93 r)) && (negb ovf || forallb (fun n => negb (given_b i n)) (header_names r))
  | 91 :: r => negb (existsb (fun c => c =? 34) (upto 93 r)) && forallb (fun n => negb (array_key_b i n) && negb (array_name_b i n)) (removelast (header_names r))
  | _ => true
  end.
Definition calm_check (ovf : bool) (i : str) : bool := forallb (calm_line ovf i) (i :: heads i).

Lemma tails_in : forall a b, In b (tails (a ++ b)).
Proof. induction a as [|c a IH]; intros b; [destruct b; left; reflexivity|]. cbn [app tails]. right. apply IH. Qed.
Lemma after_app : forall n w r, blanks w -> after n (n ++ w ++ r) = Some (past_blanks r).
Proof.
  intros n w r B. unfold after. assert (X : starts_with n (n ++ w ++ r) = true).
  { clear B. induction n as [|c n IH]; cbn; auto. rewrite N.eqb_refl. exact IH. }
  rewrite X, skipn_app, skipn_all, Nat.sub_diag. cbn [skipn app]. rewrite past_app; auto.
Qed.
Lemma given_true : forall i n, given_key i n -> given_b i n = true.
Proof.
  intros i n (a & w & b & -> & B). unfold given_b. apply existsb_exists. eexists. split; [apply tails_in|]. rewrite after_app by auto. reflexivity.
Qed.
Lemma array_key_true : forall i n, array_key i n -> array_key_b i n = true.
Proof.
  intros i n (a & w & w' & b & -> & B & B'). unfold array_key_b. apply existsb_exists. eexists. split; [apply tails_in|]. rewrite after_app by auto.
  change (past_blanks (lit "=" ++ w' ++ lit "[" ++ b)) with (61 :: w' ++ lit "[" ++ b). cbv iota. rewrite past_app by auto. reflexivity.
Qed.
Lemma name_past : forall n r, name_text n -> past_blanks (n ++ r) = n ++ r.
Proof.
  intros n r NT. destruct (name_key_start n r NT) as (c & y & -> & C). apply key_head in C. cbn [past_blanks].
  destruct ((c =? 9) || (c =? 32)) eqn:E; auto. exfalso. lia.
Qed.
Lemma array_name_true : forall i n, array_name i n -> array_name_b i n = true.
Proof.
  intros i n (b & LA & w & w1 & w2 & y & -> & B & B1 & B2 & NT & _). unfold array_name_b. apply existsb_exists. eexists. split; [apply heads_line; exact LA|].
  rewrite past_app by auto. change (past_blanks (lit "[[" ++ w1 ++ n ++ concat (map name_after []) ++ w2 ++ lit "]]" ++ y)) with (91 :: 91 :: w1 ++ n ++ w2 ++ lit "]]" ++ y).
  cbv iota. rewrite past_app, name_past, after_app by auto. reflexivity.
Qed.
Definition quoteless (u : str) : Prop := existsb (fun c => c =? 34) u = false.
Definition unspaced (u : str) : str := filter (fun c => negb ((c =? 9) || (c =? 32))) u.
Lemma upto_in : forall u, In 34 u -> ~ In 93 u -> forall r, ~ quoteless (upto 93 (u ++ r)).
Proof.
  intros u I N r Q. rewrite upto_app in Q by auto. unfold quoteless in Q. rewrite existsb_app in Q. apply Bool.orb_false_iff in Q as [Q _].
  assert (X : existsb (fun c => c =? 34) u = true) by (apply existsb_exists; exists 34; auto). congruence.
Qed.
Lemma name_bare : forall w n r, blanks w -> name_text n -> quoteless (upto 93 (w ++ n ++ r)) -> bare_key n.
Proof.
  intros w n r B [BK|(x & _ & ->)] Q; auto. exfalso. rewrite <- !app_assoc in Q. rewrite app_assoc in Q. eapply upto_in; [| |exact Q].
  - apply in_or_app. right. left. auto.
  - intros I. apply in_app_or in I as [I|[I|[]]]; [|discriminate]. eapply blank_no; eauto; discriminate.
Qed.
Lemma unspaced_blanks : forall w, blanks w -> unspaced w = [].
Proof. intros w B. induction B as [|c w H _ IH]; auto. unfold unspaced in *. cbn. destruct H as [-> | ->]; cbn; auto. Qed.
Lemma unspaced_bare : forall n, bare_key n -> unspaced n = n.
Proof.
  intros n [_ F]. induction F as [|c n H _ IH]; auto. unfold unspaced in *. cbn. destruct ((c =? 9) || (c =? 32)) eqn:E; cbn; [|rewrite IH; auto].
  unfold bare_char in H. exfalso. lia.
Qed.
Lemma unspaced_app : forall a b, unspaced (a ++ b) = unspaced a ++ unspaced b.
Proof. intros. apply filter_app. Qed.
Lemma quoteless_app : forall a b, quoteless (a ++ b) -> quoteless b.
Proof. intros a b Q. unfold quoteless in *. rewrite existsb_app in Q. apply Bool.orb_false_iff in Q. tauto. Qed.
Lemma names_tail : forall more w2 y, Forall tri_ok more -> blanks w2 ->
  quoteless (upto 93 (concat (map name_after more) ++ w2 ++ 93 :: y)) ->
  unspaced (upto 93 (concat (map name_after more) ++ w2 ++ 93 :: y)) = concat (map (fun x => 46 :: snd x) more) /\ Forall (fun x => bare_key (snd x)) more.
Proof.
  intros more w2 y F B2. assert (NW : forall w, blanks w -> ~ In 93 w) by (intros w B; apply blank_no; auto; discriminate).
  induction F as [|[[a b] n] more (F1 & F2 & F3) F IH]; intros Q; cbn [map concat] in *.
  - cbn [app]. rewrite upto_app by auto. cbn [upto]. rewrite N.eqb_refl, app_nil_r. split; [apply unspaced_blanks; auto|constructor].
  - cbn [fst snd] in *. set (T := concat (map name_after more) ++ w2 ++ 93 :: y) in *.
    assert (E : (name_after (a, b, n) ++ concat (map name_after more)) ++ w2 ++ 93 :: y = (a ++ lit ".") ++ b ++ n ++ T).
    { unfold name_after, T. cbn [fst snd]. rewrite <- !app_assoc. reflexivity. }
    rewrite E in Q |- *. assert (NA : ~ In 93 (a ++ lit ".")) by (intros I; apply in_app_or in I as [I|I]; [exact (NW a F1 I)|cbn in I; destruct I as [I|[]]; discriminate]).
    rewrite (upto_app _ _ _ NA) in Q |- *.
    apply quoteless_app in Q. assert (BK : bare_key n) by exact (name_bare b n T F2 F3 Q).
    rewrite upto_app in Q |- * by (apply NW; auto). apply quoteless_app in Q.
    rewrite upto_app in Q |- * by (apply bare_no; auto; unfold bare_char; lia). apply quoteless_app in Q.
    destruct (IH Q) as [E2 FB]. rewrite !unspaced_app, E2, (unspaced_blanks a), (unspaced_blanks b), (unspaced_bare n) by auto. split; [|constructor; auto]. reflexivity.
Qed.
Lemma split_name : forall n, ~ In 46 n -> forall u, split_dots (n ++ 46 :: u) = n :: split_dots u.
Proof.
  induction n as [|c n IH]; intros N u; cbn [app split_dots].
  - rewrite N.eqb_refl. auto.
  - destruct (c =? 46) eqn:E; [exfalso; apply N; left; lia|]. rewrite IH by (intro; apply N; right; auto). auto.
Qed.
Lemma split_one : forall n, ~ In 46 n -> split_dots n = [n].
Proof.
  induction n as [|c n IH]; intros N; cbn [split_dots]; auto.
  destruct (c =? 46) eqn:E; [exfalso; apply N; left; lia|]. rewrite IH by (intro; apply N; right; auto). auto.
Qed.
Lemma split_names : forall (more : list (str * str * str)) n, bare_key n -> Forall (fun x => bare_key (snd x)) more ->
  split_dots (n ++ concat (map (fun x => 46 :: snd x) more)) = n :: map snd more.
Proof.
  induction more as [|x more IH]; intros n BN F; cbn [map concat].
  - rewrite app_nil_r. apply split_one. apply bare_no; auto. unfold bare_char. lia.
  - inversion F; subst. cbn [app]. rewrite split_name by (apply bare_no; auto; unfold bare_char; lia). rewrite IH; auto.
Qed.
Lemma names_ok : forall w1 n more w2 y, blanks w1 -> name_text n -> Forall tri_ok more -> blanks w2 ->
  quoteless (upto 93 (w1 ++ n ++ concat (map name_after more) ++ w2 ++ 93 :: y)) ->
  header_names (w1 ++ n ++ concat (map name_after more) ++ w2 ++ 93 :: y) = n :: map snd more.
Proof.
  intros w1 n more w2 y B1 NT F B2 Q. assert (BK : bare_key n) by exact (name_bare w1 n _ B1 NT Q). unfold header_names. fold (unspaced (upto 93 (w1 ++ n ++ concat (map name_after more) ++ w2 ++ 93 :: y))).
  rewrite upto_app in Q |- * by (apply blank_no; auto; discriminate). apply quoteless_app in Q.
  rewrite upto_app in Q |- * by (apply bare_no; auto; unfold bare_char; lia). apply quoteless_app in Q.
  destruct (names_tail _ _ _ F B2 Q) as [E FB]. rewrite !unspaced_app, (unspaced_blanks w1), (unspaced_bare n), E by auto. apply split_names; auto.
Qed.
Lemma calm_ok : forall ovf i, calm_check ovf i = true -> calm_headers ovf i.
Proof.
  intros ovf i C b n more LA. apply heads_line in LA. unfold calm_check in C. rewrite forallb_forall in C. specialize (C b LA). unfold calm_line in C.
  split; intros (w & w1 & w2 & y & -> & B & B1 & B2 & NT & F); rewrite past_app in C by auto.
  - change (past_blanks (lit "[[" ++ w1 ++ n ++ concat (map name_after more) ++ w2 ++ lit "]]" ++ y)) with
      (91 :: 91 :: w1 ++ n ++ concat (map name_after more) ++ w2 ++ 93 :: 93 :: y) in C. cbv iota in C. apply andb_prop in C as [C1 C2].
    set (T := w1 ++ n ++ _) in *. apply Bool.negb_true_iff in C1.
    assert (Q : quoteless (upto 93 T)).
    { unfold quoteless. apply Bool.not_true_iff_false. intros X. apply existsb_exists in X as (c & X1 & X2).
      apply Bool.not_true_iff_false in C1. apply C1. apply existsb_exists. exists c. split; [exact X1|lia]. }
    assert (HN : header_names T = n :: map snd more) by exact (names_ok w1 n more w2 (93 :: y) B1 NT F B2 Q). split.
    + destruct more as [|x more]; auto. exfalso.
      assert (BK : bare_key n) by exact (name_bare w1 n _ B1 NT Q). inversion F as [|? ? (F1 & F2 & F3) F']; subst.
      assert (Y : existsb (fun c => (c =? 46) || (c =? 34)) (upto 93 T) = true).
      { unfold T. rewrite upto_app by (apply blank_no; auto; discriminate). rewrite upto_app by (apply bare_no; auto; unfold bare_char; lia).
        cbn [map concat]. unfold name_after at 1. rewrite <- !app_assoc. rewrite upto_app by (apply blank_no; auto; discriminate).
        rewrite !existsb_app. cbn. rewrite !Bool.orb_true_r. reflexivity. }
      congruence.
    + intros ->. cbn [negb orb] in C2. rewrite HN in C2. cbn [forallb] in C2. apply andb_prop in C2 as [C2 _]. apply Bool.negb_true_iff in C2.
      intros X. apply given_true in X. congruence.
  - change (past_blanks (lit "[" ++ w1 ++ n ++ concat (map name_after more) ++ w2 ++ lit "]" ++ y)) with
      (91 :: w1 ++ n ++ concat (map name_after more) ++ w2 ++ 93 :: y) in C. set (T := w1 ++ n ++ _) in *.
    assert (C' : negb (existsb (fun c => c =? 34) (upto 93 T)) && forallb (fun n => negb (array_key_b i n) && negb (array_name_b i n)) (removelast (header_names T)) = true).
    { destruct T as [|c T'] eqn:ET; auto. destruct (N.eq_dec c 91) as [->|NC].
      - exfalso. symmetry in ET. eapply bracket_blank; [exact ET|auto|auto].
      - destruct c as [|c]; auto. do 8 (destruct c as [c|c|]; auto; try congruence). }
    apply andb_prop in C' as [C1 C2]. apply Bool.negb_true_iff in C1. assert (HN : header_names T = n :: map snd more) by exact (names_ok w1 n more w2 y B1 NT F B2 C1). rewrite HN in C2.
    intros x I. rewrite forallb_forall in C2. specialize (C2 x I). apply andb_prop in C2 as [A1 A2]. apply Bool.negb_true_iff in A1, A2.
    split; intros X; [apply array_key_true in X|apply array_name_true in X]; congruence.
Qed.
