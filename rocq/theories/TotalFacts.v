(** get_value panics only on the keys of declared tables. *)
From Coq Require Import Lia ZifyBool ZifyNat ZifyN.
From Verif Require Import Str Regex Types Ast State Nom Keys Grammar Api Facts Spec RegexFacts NomFacts DateFacts RoundTrip Effects
  ScalarFacts ParseFacts WalkFacts DocFacts IdFacts DocSpec PathFacts NestFacts SectFacts LookFacts HeadSpec SafeFacts.

(** the standard tables among some headers *)
Definition std_of (e : expression) : list table :=
  match e.(e_table) with Some (TStandard t) => [t] | _ => [] end.

(** ** The stack of tables and its indices have the same length *)
Definition even (s : pst) : Prop := length s.(p_tindex) = length s.(p_tables).

Lemma std_steps : forall w1 w2 k l s s' t, std_table_act w1 w2 k l s = Ok (s', t) -> even s -> even s' /\
  (s'.(p_map) = s.(p_map) \/
   exists c p, c.(c_val) = TTable /\ forall k' c', valof s'.(p_map) k' = Some c' ->
     valof s.(p_map) k' = Some c' \/ (k' = p ++ last_name (tt_table t) /\ c' = c)).
Proof.
  intros w1 w2 k l s s' t H EV. unfold std_table_act in H. apply rbind_ok in H as (s1 & K & H).
  unfold keychain_drop in K. destruct (Nat.ltb _ _); [discriminate|].
  match type of K with Ok (set_keychain ?c _) = _ => set (kc := c) in K; clearbody kc end.
  inversion K; subst; clear K. unfold even in *. cbn [p_tables p_tindex set_keychain] in H.
  match type of H with (let '(_, _) := ?x in _) = _ => destruct x as [ts ti] eqn:A end.
  assert (EA : length ti = length ts).
  { destruct (_ || _); inversion A; subst; auto. rewrite !pop_len. lia. }
  match type of H with (let '(_, _) := ?x in _) = _ => destruct x as [ts2 ti2] eqn:B end.
  assert (EB : length ti2 = length ts2).
  { destruct (vlast ts); [|inversion B; subst; auto]. destruct (str_eqb _ _); [inversion B; subst; auto|].
    destruct (is_subtable_of _ _); [inversion B; subst; auto|]. destruct (pop_until_sub _ _ _) as [a b] eqn:Q.
    apply until_sub in Q as [Q _]; [|rewrite !rev_length; auto]. inversion B; subst. rewrite !rev_length. auto. }
  clear A B EA ts ti.
  apply rbind_ok in H as ([[e tk] pk] & KEY & H). destruct e.
  - apply rbind_ok in H as ([[x y] z] & _ & H). inversion H; subst. cbn. auto.
  - apply rbind_ok in H as (m & I1 & H). apply rbind_ok in H as (m2 & I2 & H).
    unfold new_cell in H. apply rbind_ok in H as (m3 & I3 & H). inversion H; subst.
    cbn [p_map set_last_table set_array_error set_map set_tables p_next set_keychain p_tables p_tindex tt_table] in *.
    split; [rewrite !push_len; auto|]. right.
    assert (N : exists p, tk = p ++ last_name (table_new {| ws1 := w1; ws2 := w2 |} k l)).
    { match type of KEY with (if ?b then _ else _) = _ => destruct b; [inversion KEY|] end.
      apply rbind_ok in KEY as ([[v tk0] pk0] & GK & KEY).
      assert (T : tk0 = tk).
      { destruct v; cbn [negb] in KEY; [|inversion KEY]. apply rbind_ok in KEY as (b & _ & KEY). destruct b; inversion KEY; auto. }
      subst tk0. clear KEY. unfold get_array_table_key in GK.
      remember (vpush ti2 0) as ti. remember (vpush ts2 (TStandard (table_new {| ws1 := w1; ws2 := w2 |} k l))) as ts.
      assert (L : forall n i pe v0 fk q0, (i + S n = length ti)%nat -> gatk_loop (p_ovf s) (p_map s) ts ti (S n) i pe v0 fk q0 = Ok (v, tk, pk0) ->
        exists p, tk = p ++ last_name (table_new {| ws1 := w1; ws2 := w2 |} k l)).
      { induction n; intros i pe v0 fk q LE X.
        - cbn [gatk_loop] in X. assert (V : vindex ts i = Ok (TStandard (table_new {| ws1 := w1; ws2 := w2 |} k l))).
          { subst ts ti. unfold vindex, vpush in *. rewrite app_length in LE. simpl in LE. rewrite nth_error_app2 by lia.
            replace (i - length ts2)%nat with 0%nat by lia. reflexivity. }
          rewrite V in X. cbn [rbind] in X. destruct (gatk_std _ _ _ _ _) as [[a b] c].
          inversion X; subst. exists b. reflexivity.
        - remember (S n) as n'. cbn [gatk_loop] in X. apply rbind_ok in X as (u & _ & X). destruct u as [u|u].
          + destruct (gatk_std _ _ _ _ _) as [[a b] c]. subst n'. eapply IHn; [|exact X]. lia.
          + apply rbind_ok in X as (f & _ & X). apply rbind_ok in X as (d & _ & X). subst n'.
            destruct (Nat.ltb _ _); (eapply IHn; [|exact X]; lia). }
      destruct (length ti) as [|n] eqn:LT; [subst ti; rewrite push_len in LT; discriminate|].
      eapply (L n); [|exact GK]. lia. }
    apply implicit_sub in I1. apply table_set_sub in I2. destruct N as [p N].
    exists (Cell (p_next s) TTable), p. split; auto. rewrite N in *. clear N KEY.
    match type of I3 with match hget _ ?m with _ => _ end = _ => set (m2' := m) in * end.
    assert (V : sub m2' m3).
    { match type of I3 with match ?x with _ => _ end = _ => destruct x as [hv|] eqn:E end; [|inversion I3; subst; subs].
      destruct (hv_subkeys hv); inversion I3; subst; subs. }
    intros k' c' C. apply V in C. subst m2'.
    match type of C with valof (match ?x with _ => _ end) _ = _ => destruct x end; rewrite valof_put in C;
      (destruct (str_eqb k' _) eqn:E; [right; apply str_eqb_eq in E; split; [exact E|inversion C; auto]|left; apply I1, I2, C]).
Qed.

Lemma increment_len : forall m ts ti m' ti', increment_array_table_index m ts ti = Ok (m', ti') -> length ti' = length ti.
Proof.
  intros m ts ti m' ti' H. unfold increment_array_table_index in H. apply rbind_ok in H as (pk & _ & H).
  destruct (vlast ti) eqn:L; inversion H; subst. rewrite push_len, pop_len.
  destruct ti; [discriminate|]. cbn [length]. lia.
Qed.
Lemma arr_even : forall w1 w2 k l s s' t, array_table_act w1 w2 k l s = Ok (s', t) -> even s -> even s'.
Proof.
  intros w1 w2 k l s s' t H EV. unfold array_table_act in H. apply rbind_ok in H as (s1 & K & H).
  unfold keychain_drop in K. destruct (Nat.ltb _ _); [discriminate|].
  match type of K with Ok (set_keychain ?c _) = _ => set (kc := c) in K; clearbody kc end.
  inversion K; subst; clear K. unfold even in *.
  match type of H with (let '(_, _) := ?x in _) = _ => destruct x as [ts ti] eqn:A end.
  assert (EA : length ti = length ts).
  { cbn [p_tables p_tindex set_array_error set_keychain] in A. match type of A with (if ?b then _ else _) = _ => destruct b end; inversion A; subst; rewrite ?pop_len; auto. }
  apply rbind_ok in H as ([[m ts2] ti2] & M & H).
  assert (EB : length ti2 = length ts2).
  { cbn [p_map p_ovf set_array_error set_keychain] in M. destruct (vlast ts) as [l0|].
    - destruct (str_eqb _ _).
      + apply rbind_ok in M as ([m1 ti1] & I & M). inversion M; subst. apply increment_len in I. lia.
      + destruct (is_subtable_of _ _).
        * apply rbind_ok in M as (m1 & I & M). inversion M; subst. rewrite !push_len. lia.
        * destruct (pop_until_key _ _ _) as [a b] eqn:Q. apply until_key in Q as [Q _]; [|rewrite !rev_length; auto].
          destruct (rev a) as [|x y] eqn:RA.
          -- apply rbind_ok in M as (m1 & I & M). apply rbind_ok in M as (pk & _ & M).
             assert (a = []) by (rewrite <- (rev_involutive a), RA; reflexivity). subst a. destruct b; [|discriminate].
             destruct (hmem pk m1); [|inversion M; subst; auto].
             apply rbind_ok in M as ([m2 ti3] & I2 & M). inversion M; subst. apply increment_len in I2. exact I2.
          -- apply rbind_ok in M as ([m1 ti1] & I & M). inversion M; subst. apply increment_len in I. rewrite I, rev_length, Q, <- rev_length, RA. auto.
    - apply rbind_ok in M as (m1 & I & M). inversion M; subst. rewrite !push_len. lia. }
  apply rbind_ok in H as ([[v fk] pk] & _ & H). destruct v; cbn [negb] in H; inversion H; subst; exact EB.
Qed.

(** ** Cells under a key have a value, or are tables with that name *)
Definition fine (ts : list table) (k : str) (t : tval) : Prop :=
  vgood t \/ (t = TTable /\ exists tb p, In tb ts /\ k = p ++ last_name tb).
Definition W (ts : list table) (acc : list cell) (s : pst) : Prop :=
  even s /\ (forall k c, valof s.(p_map) k = Some c -> fine ts k c.(c_val)) /\ Forall (fun c => vgood c.(c_val)) acc.

Lemma good_kids : forall t, t <> TTable -> Forall (fun c => vgood c.(c_val)) (tcells t) -> vgood t.
Proof.
  intros t N H. destruct t as [| | | |vals ? ?| |kvs ?|]; try (eexists; reflexivity); try congruence.
  - assert (X : exists l, rmap (fun av => to_val (c_val (av_val av))) vals = Ok l).
    { apply rmap_ok'. apply Forall_forall. intros av I. rewrite Forall_forall in H. apply H.
      rewrite tcells_kids. apply in_flat_map. exists (av_val av). split; [apply in_map_iff; eauto|left; auto]. }
    destruct X as [l X]. exists (VArray l). cbn [to_val]. rewrite X. reflexivity.
  - assert (X : exists l, rmap (fun tk => let? x := to_val (c_val (kv_val (tk_kv tk))) in Ok (kv_key (tk_kv tk), x)) kvs = Ok l).
    { apply rmap_ok'. apply Forall_forall. intros tk I. rewrite Forall_forall in H.
      assert (G1 : vgood (c_val (kv_val (tk_kv tk)))).
      { apply H. rewrite tcells_kids. apply in_flat_map. exists (kv_val (tk_kv tk)). split; [apply in_map_iff; eauto|left; auto]. }
      destruct G1 as [v ->]. cbn [rbind]. eauto. }
    destruct X as [l X]. exists (VInlineTable l). cbn [to_val]. rewrite X. reflexivity.
Qed.

Section Total.
  Variable ts : list table.
  Notation G := (W ts).
  Notation FR := (fun (c : cell) (_ : pst) => vgood c.(c_val)).
  Notation Vok := (fun (t : tval) (_ : pst) => t <> TTable).
  Lemma w_same : forall acc s s', s'.(p_map) = s.(p_map) -> s'.(p_tables) = s.(p_tables) -> s'.(p_tindex) = s.(p_tindex) -> G acc s -> G acc s'.
  Proof. intros acc s s' A B C (X & Y & Z). unfold W, even. rewrite A, B, C. auto. Qed.
  Lemma w_insert : forall acc c s s', G acc s -> vgood (c_val c) -> insert_keyval_into_map s c = Ok s' -> G acc s'.
  Proof.
    intros acc c s s' (X & Y & Z) V I. apply insert_adds in I as [[e ->]|[m [-> [k0 A]]]]; [split; auto|].
    split; [exact X|]. split; auto. cbn [p_map set_map]. intros k c' C. apply A in C as [C|[_ ->]]; auto. left. auto.
  Qed.
  Lemma w_keyval : ispec G keyval_p kv_cells.
  Proof.
    unfold keyval_p. apply i_keyval with (FR := FR); try (intros; eapply w_same; [..|eassumption]; reflexivity); auto.
    - intros acc c s s' S V I. eapply w_insert; eauto.
    - apply i_val_p with (Vok := Vok); try (intros; eapply w_same; [..|eassumption]; reflexivity); auto.
      + intros acc x s (A & B & C). apply Forall_app in C as [C _]. split; auto.
      + intros acc t s N (A & B & C). apply Forall_app in C as [C D]. pose proof (good_kids t N D) as V. split; [|exact V].
        split; [exact A|]. split; [exact B|]. apply Forall_app. split; auto.
      + intros acc c s s' S V I. eapply w_insert; eauto.
      + intros t s H E. subst. exact H.
      + intros f s i s' r t E. unfold array_ in E. apply rbind_ok in E as ([s1 r1] & E1 & E). inversion E; subst.
        unfold array_internal_ in E1. pinv. discriminate.
      + discriminate.
      + discriminate.
  Qed.
End Total.

Lemma w_more : forall ts x s, W ts [] s -> W (ts ++ x) [] s.
Proof.
  intros ts x s (A & B & C). split; auto. split; auto. intros k c H. destruct (B k c H) as [V|(T & tb & p & I & E)]; [left; auto|].
  right. split; auto. exists tb, p. split; auto. apply in_app_iff. auto.
Qed.
Lemma w_drop : forall ts acc s, W ts acc s -> W ts [] s.
Proof. intros ts acc s (A & B & C). split; auto. Qed.
Lemma w_pure : forall A (p : P A) ts s i s' r, pure p -> p s i = Ok (s', r) -> W ts [] s -> W ts [] s'.
Proof. intros A p ts s i s' r H E S. apply (pure_state _ H) in E. subst. auto. Qed.

Definition std_tt (t : table_type) : list table := match t with TStandard x => [x] | _ => [] end.
Lemma w_table : forall ts s i s' r, table_p s i = Ok (s', r) -> W ts [] s ->
  match r with Done _ t => W (ts ++ std_tt t) [] s' | _ => W ts [] s' end.
Proof.
  intros ts. assert (KY : forall (T : list table), nospec (W T) key_p).
  { intros T. apply n_key; intros; eapply w_same; [..|eassumption]; reflexivity. }
  assert (SK : nospec (W ts) table_subkeys).
  { intros acc. eapply h_conseq with (Q := fun a => W ts (acc ++ flat_map (fun _ => []) a)) (E := W ts acc) (Pre := W ts acc); auto.
    - apply i_many0.
      + intros acc0 x s (A & B & C). apply Forall_app in C as [C _]. split; auto.
      + intros acc'. unfold table_subkey. repeat (eapply h_bind; [solve [apply n_pure; unfold ws; pure_tac]|intros]).
        eapply h_bind; [apply KY|]. intros. apply h_ret. intros. rewrite app_nil_r. auto.
    - intros a s H. cbv beta in H. replace (flat_map (fun _ => []) a) with (@nil cell) in H by (induction a; auto). rewrite app_nil_r in H. auto. }
  assert (H : hoare (W ts []) table_p (W ts []) (fun t => W (ts ++ std_tt t) [])).
  { unfold table_p, array_table, std_table.
    apply h_alt; apply h_complete; repeat (eapply h_bind; [first [apply KY|apply SK|apply n_pure; unfold ws; pure_tac]|intros]).
    - apply h_act. intros s s' t (A & B & C) E. pose proof (arr_even _ _ _ _ _ _ _ E A) as EV. apply arr_sub in E as E2. destruct E2 as [_ SB].
      apply w_more. split; auto.
    - apply h_act. intros s s' t (A & B & C) E. destruct (std_steps _ _ _ _ _ _ _ E A) as [EV M]. split; auto. split; auto.
      assert (TT : exists x, t = TStandard x).
      { apply std_table_effect in E as [-> _]. eauto. }
      destruct TT as [x ->]. cbn [tt_table std_tt] in *. intros k c V.
      destruct M as [M|(c0 & p & T & M)].
      + rewrite M in V. destruct (B k c V) as [F|(T & tb & q & I & X)]; [left; auto|]. right. split; auto. exists tb, q. split; auto. apply in_app_iff; auto.
      + apply M in V as [V|[-> ->]].
        * destruct (B k c V) as [F|(T' & tb & q & I & X)]; [left; auto|]. right. split; auto. exists tb, q. split; auto. apply in_app_iff; auto.
        * right. split; auto. exists x, p. split; auto. apply in_app_iff. right. left. auto. }
  intros s i s' r E S. specialize (H _ _ _ _ S E). destruct r; auto.
Qed.

Lemma w_expr : forall ts s i s' r e, expression_p s i = Ok (s', Done r e) -> W ts [] s -> W (ts ++ std_of e) [] s'.
Proof.
  intros ts s i s' r e H S. unfold expression_p in H. unfold alt at 1 in H.
  apply rbind_ok in H as ([s1 r1] & E1 & H). unfold complete at 1 in E1. apply rbind_ok in E1 as ([s2 r2] & E1 & E2).
  assert (X : match r2 with Done _ e0 => W (ts ++ std_of e0) [] s2 | _ => W ts [] s2 end).
  { clear - E1 S. unfold table_comment in E1. unfold bind at 1 in E1. apply rbind_ok in E1 as ([s1 r1] & E1 & E).
    pose proof (w_pure _ ws ts _ _ _ _ ltac:(unfold ws; pure_tac) E1 S) as S1. destruct r1 as [i1 w| |]; try (inversion E; subst; auto; fail).
    unfold bind at 1 in E. apply rbind_ok in E as ([s3 r3] & E3 & E). pose proof (w_table _ _ _ _ _ E3 S1) as S3.
    destruct r3 as [i3 t| |]; try (inversion E; subst; auto; fail).
    unfold bind at 1 in E. apply rbind_ok in E as ([s4 r4] & E4 & E). destruct (ws_done s3 i3) as (w2 & i4 & W2). rewrite W2 in E4. inversion E4; subst.
    unfold bind at 1 in E. apply rbind_ok in E as ([s5 r5] & E5 & E).
    assert (P5 : s5 = s4). { eapply (pure_state (opt (complete comment))); [unfold comment; pure_tac|exact E5]. }
    subst s5. assert (D : exists i5 c, r5 = Done i5 c).
    { unfold opt in E5. apply rbind_ok in E5 as ([s6 r6] & E6 & E5). destruct r6; inversion E5; subst; eauto.
      exfalso. eapply complete_not_inc; eauto. }
    destruct D as (i5 & c & ->). inversion E; subst. unfold std_of. cbn [e_table]. destruct t; exact S3. }
  destruct r2 as [i2 e2| |]; inversion E2; subst; clear E2.
  { inversion H; subst. exact X. }
  all: assert (Y : hoare (W ts []) (alt (complete keyval_comment) (alt (complete ws_comment) (complete ws_expr))) (W ts [])
      (fun e s => std_of e = [] /\ W ts [] s)).
  1,3: repeat apply h_alt; apply h_complete.
  1,4: unfold keyval_comment; (eapply h_bind; [apply n_pure; unfold ws; pure_tac|]); intros w;
      (eapply h_bind; [apply w_keyval|]); intros kv; cbv beta;
      repeat (eapply h_bind; [eapply h_conseq; [apply n_pure; unfold ws, comment; pure_tac|eauto using w_drop..]|cbv beta; intros]);
      apply h_ret; intros; split; [reflexivity|eapply w_drop; eauto].
  1,3: unfold ws_comment; repeat (eapply h_bind; [apply n_pure; unfold ws, comment; pure_tac|intros]);
      apply h_ret; intros; split; [reflexivity|eapply w_drop; eauto].
  1,2: unfold ws_expr; repeat (eapply h_bind; [apply n_pure; unfold ws, comment; pure_tac|intros]);
      apply h_ret; intros; split; [reflexivity|eapply w_drop; eauto].
  all: destruct (Y _ _ _ _ X H) as [-> Z]; rewrite app_nil_r; exact Z.
Qed.

Lemma newline_short : forall s i s' r a, newline s i = Ok (s', Done r a) -> (length r < length i)%nat.
Proof.
  intros s i s' r a H. apply line_after in H as (b & -> & c & ->). rewrite !app_length. cbn. lia.
Qed.
Lemma w_loop : forall n ts s i s' r l, many_loop n nl_expression_p s i = Ok (s', Done r l) -> W ts [] s ->
  W (ts ++ flat_map (fun ne => std_of ne.(ne_expr)) l) [] s'.
Proof.
  induction n; intros ts s i s' r l H S; [discriminate|]. cbn [many_loop] in H.
  destruct i as [|c i]; [inversion H; subst; simpl; rewrite app_nil_r; auto|].
  apply rbind_ok in H as ([s1 r1] & E & H). unfold nl_expression_p in E at 1. unfold bind at 1 in E.
  apply rbind_ok in E as ([s2 r2] & E2 & E).
  assert (S2 : W ts [] s2).
  { assert (X : nospec (W ts) newline) by (apply n_newline; intros; eapply w_same; [..|eassumption]; reflexivity).
    pose proof (X _ _ _ _ _ S E2) as Y. destruct r2; exact Y. }
  destruct r2 as [i2 nl| |]; [|inversion E; subst; inversion H; subst; simpl; rewrite app_nil_r; auto..].
  apply newline_short in E2. unfold bind at 1 in E. apply rbind_ok in E as ([s3 r3] & E3 & E).
  destruct (expression_done _ _ _ _ E3) as (i3 & e & ->). pose proof (w_expr _ _ _ _ _ _ E3 S2) as S3.
  apply reads_expression in E3. inversion E; subst; clear E.
  match type of H with (if ?b then _ else _) = _ => destruct b eqn:NB end.
  { exfalso. apply Nat.eqb_eq in NB. rewrite app_length in E2. cbn [length] in *. lia. }
  apply rbind_ok in H as ([s4 r4] & E4 & H). destruct r4; inversion H; subst.
  cbn [flat_map ne_expr]. rewrite app_assoc. eapply IHn; eauto.
Qed.
Lemma w_toml : forall s i s' r t, toml_p s i = Ok (s', Done r t) -> W [] [] s ->
  W (flat_map (fun ne => std_of ne.(ne_expr)) t) [] s'.
Proof.
  intros s i s' r t H S. unfold toml_p in H. apply bind_done in H as (s1 & i1 & e & E1 & H).
  apply bind_done in H as (s2 & i2 & l & E2 & H). inversion H; subst. cbn [flat_map ne_expr].
  apply (w_loop _ _ _ _ _ _ _ E2). apply (w_expr [] _ _ _ _ _ E1 S).
Qed.

(** a key that get_value panics on is a prefix followed by the last name of a table header of the document *)
Lemma panic_table : forall ovf i s r k, parse (new_parser ovf) i = Ok (s, r) -> get_value s k = Panic ->
  exists ne t p, In ne s.(p_root) /\ ne.(ne_expr).(e_table) = Some (TStandard t) /\ k = p ++ last_name t.
Proof.
  intros ovf i s r k H P. destruct (parse_inv _ _ _ _ H) as (s1 & rest & t & T & _ & -> & _). cbn [p_root set_leftover set_root].
  apply w_toml in T.
  - destruct T as (_ & M & _). unfold get_value in P. cbn [p_map set_leftover set_root] in P.
    specialize (M k). unfold valof in M. destruct (hget k (p_map s1)) as [hv|]; [|discriminate].
    destruct (hv_value hv) as [c|]; [|discriminate]. destruct (M c eq_refl) as [[v V]|(TT & tb & p & I & K)].
    + rewrite V in P. discriminate.
    + apply in_flat_map in I as (ne & I & J). exists ne, tb, p. split; auto. split; auto.
      unfold std_of in J. destruct (e_table (ne_expr ne)) as [[x|x]|]; cbn in J; intuition congruence.
  - split; [reflexivity|]. split; [|constructor]. intros k' c C. cbn [new_parser p_map] in C.
    rewrite valof_put in C. destruct (str_eqb k' root_key); discriminate.
Qed.

Lemma panic_names : forall ovf ls, lines_ok ls -> distinct (body ls) -> plain_headers (body ls) ->
  exists s, parse (new_parser ovf) (lines_text ls) = Ok (s, Full) /\
    forall k, get_value s k = Panic <-> In k (table_names (body ls)).
Proof.
  intros ovf ls OK DS PH. destruct (lines_parse ovf ls OK DS PH) as (s & P & RA). exists s. split; auto. intros x. split.
  - intros H. assert (N : x <> []).
    { intros ->. unfold get_value in H. destruct (hget [] (p_map s)) as [hv|] eqn:HG; [|discriminate].
      apply (mi_only _ _ _ (ra_map _ _ RA)) in HG as [HG|(a & K & HG)]; [discriminate|].
      apply (atext_ne a); auto. eapply known_good; [|exact K]. apply (bare_lines ls OK). }
    assert (C : exists ch, get_children s x = Some ch).
    { unfold get_value, get_children in *. destruct x as [|a x]; [congruence|]. destruct (hget (a :: x) (p_map s)); [eauto|discriminate]. }
    destruct C as [ch C]. apply (look_only ls s RA) in C as [C|[C|[C|[C|[(n & i & C & E)|(t & k & v & p & w' & I & G & AP & E)]]]]]; auto.
    + congruence.
    + subst x. unfold get_value in H. rewrite (mi_root _ _ _ (ra_map _ _ RA)) in H. discriminate.
    + apply (look_array ls s OK RA) in C as [_ C]. congruence.
    + subst x. apply (look_elem ls s OK RA) in C as [_ C]. congruence.
    + destruct (look_value ls s OK DS RA t k v p I G) as [V _]. subst x. congruence.
  - intros I. apply (look_table ls s OK RA x I).
Qed.
