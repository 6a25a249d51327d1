(** Parsing does not panic on inputs in which no header continues the name of an array
    of tables: arrays of tables may have dotted names. *)
From Coq Require Import Lia ZifyBool ZifyNat ZifyN.
From Verif Require Import Str Regex Types Ast State Nom Keys Grammar Api Facts Spec RegexFacts NomFacts DateFacts RoundTrip Effects
  ParseFacts WalkFacts StringFacts LineFacts HeadSpec SafeFacts CountFacts CalmSpec CalmWalk CalmFacts DotSpec FlatFacts TreeStack UpdateFacts ApartSpec.

Section Apart.
Variables (o : bool) (D : str).

Definition at_array (k : str) : Prop := exists p, header D true p /\ k = dotted_name p.
Local Notation bad := (bad D at_array).
Local Notation given := (given D).
Local Notation counted := (counted D at_array).

(** ** Names listed as children have entries *)
Definition under (k n : str) : str := if str_eqb k root_key then n else k ++ lit "." ++ n.
Definition listed (X : str -> Prop) (m : vmap) : Prop := forall k v l n, hget k m = Some (HashValue v (Keys l)) -> k <> [] ->
  In n l -> name_text n -> ~ given_key D n -> X (under k n) \/ hget (under k n) m <> None.
Definition nowhere (_ : str) : Prop := False.
Lemma put_some : forall (m : vmap) k v x, hget x m <> None -> hget x (hput k v m) <> None.
Proof.
  intros m k v x E. destruct (str_eqb x k) eqn:Q; [apply str_eqb_eq in Q; subst; rewrite hget_hput_same; discriminate|].
  rewrite hget_hput_other; auto. intros ->. rewrite str_eqb_refl in Q. discriminate.
Qed.
Lemma listed_put : forall X m k v sub, listed X m ->
  (forall l n, sub = Keys l -> k <> [] -> In n l -> name_text n -> ~ given_key D n -> X (under k n) \/ hget (under k n) m <> None \/ under k n = k) ->
  listed X (hput k (HashValue v sub) m).
Proof.
  intros X m k v sub L C k' v' l n E NE I NT NG. destruct (str_eqb k' k) eqn:Q.
  - apply str_eqb_eq in Q. subst. rewrite hget_hput_same in E. inversion E; subst.
    destruct (C l n eq_refl NE I NT NG) as [Z|[Z|Z]]; auto; right; [apply put_some; auto|rewrite Z, hget_hput_same; discriminate].
  - rewrite hget_hput_other in E; [|intros ->; rewrite str_eqb_refl in Q; discriminate].
    destruct (L _ _ _ _ E NE I NT NG); auto. right. apply put_some. auto.
Qed.
Lemma listed_count : forall X m k v c, listed X m -> listed X (hput k (HashValue v (Count c)) m).
Proof. intros. apply listed_put; auto. discriminate. Qed.
Lemma listed_empty : forall X m k v, listed X m -> listed X (hput k (HashValue v (Keys [])) m).
Proof. intros. apply listed_put; auto. intros l n E _ I. inversion E; subst. destruct I. Qed.
Lemma listed_same : forall X m k v v' sub, listed X m -> hget k m = Some (HashValue v sub) -> listed X (hput k (HashValue v' sub) m).
Proof. intros X m k v v' sub L E. apply listed_put; auto. intros l n -> NE I NT NG. destruct (L _ _ _ _ E NE I NT NG); auto. Qed.
Lemma vinsert_in : forall l k n, In n (fst (vinsert l k)) -> In n l \/ n = k.
Proof. intros l k n I. unfold vinsert in I. destruct (vcontains l k); auto. cbn in I. unfold vpush in I. apply in_app_or in I as [I|[I|[]]]; auto. Qed.
Lemma vinsert_incl : forall l k, incl l (fst (vinsert l k)).
Proof. intros l k n I. unfold vinsert. destruct (vcontains l k); auto. cbn. unfold vpush. apply in_or_app. auto. Qed.
Lemma vinsert_has : forall l k, In k (fst (vinsert l k)).
Proof. intros l k. unfold vinsert. destruct (vcontains l k) eqn:E; [apply vcontains_in; auto|]. cbn. unfold vpush. apply in_or_app. right. left. auto. Qed.
Lemma listed_add : forall X m k v v' l n, listed X m -> hget k m = Some (HashValue v (Keys l)) ->
  (k <> [] -> name_text n -> ~ given_key D n -> X (under k n) \/ hget (under k n) m <> None) ->
  listed X (hput k (HashValue v' (Keys (fst (vinsert l n)))) m).
Proof.
  intros X m k v v' l n L E C. apply listed_put; auto. intros l0 n0 Q NE I NT NG. inversion Q; subst. apply vinsert_in in I as [I| ->].
  - destruct (L _ _ _ _ E NE I NT NG); auto.
  - destruct (C NE NT NG); auto.
Qed.
Lemma listed_more : forall (X Y : str -> Prop) m, listed X m -> (forall k, X k -> Y k \/ hget k m <> None) -> listed Y m.
Proof. intros X Y m L C k v l n E NE I NT NG. destruct (L _ _ _ _ E NE I NT NG) as [Z|Z]; auto. Qed.

(** ** Values are at keys given in the input *)
Definition vgiven (m : vmap) : Prop := forall k v sub, hget k m = Some (HashValue v sub) -> valued v -> given k.
Lemma vgiven_put : forall m k v sub, vgiven m -> (valued v -> given k) -> vgiven (hput k (HashValue v sub) m).
Proof.
  intros m k v sub V C k' v' sub' E. destruct (str_eqb k' k) eqn:Q.
  - apply str_eqb_eq in Q. subst. rewrite hget_hput_same in E. inversion E; subst. auto.
  - rewrite hget_hput_other in E; [eauto|]. intros ->. rewrite str_eqb_refl in Q. discriminate.
Qed.
Lemma vgiven_same : forall m k hv sub, vgiven m -> hget k m = Some hv -> vgiven (hput k (HashValue hv.(hv_value) sub) m).
Proof. intros m k [v s] sub V E. apply vgiven_put; auto. cbn. intros X. eapply V; eauto. Qed.
Lemma not_valued : forall m p n, vgiven m -> dot_end p -> name_text n -> ~ given_key D n -> key_has_value m (p ++ n) = false.
Proof.
  intros m p n V DP NT NG. unfold key_has_value. destruct (hget (p ++ n) m) as [[v sub]|] eqn:E; auto. cbn. destruct v as [c|]; auto.
  assert (Z : valued (Some c) -> False) by (intros X; eapply (not_given D p n); eauto). cbn in Z.
  destruct (c_val c); auto; exfalso; apply Z; discriminate.
Qed.

(** ** Lists of children grow *)
Definition grow (m m' : vmap) : Prop := forall k v l, hget k m = Some (HashValue v (Keys l)) ->
  exists v' l', hget k m' = Some (HashValue v' (Keys l')) /\ incl l l'.
Lemma grow_refl : forall m, grow m m.
Proof. intros m k v l E. exists v, l. split; auto. apply incl_refl. Qed.
Lemma grow_trans : forall a b c, grow a b -> grow b c -> grow a c.
Proof.
  intros a b c G1 G2 k v l E. destruct (G1 _ _ _ E) as (v1 & l1 & E1 & I1). destruct (G2 _ _ _ E1) as (v2 & l2 & E2 & I2).
  exists v2, l2. split; auto. eapply incl_tran; eauto.
Qed.
Lemma grow_put : forall m k v sub, (forall v0 l, hget k m = Some (HashValue v0 (Keys l)) -> exists l', sub = Keys l' /\ incl l l') ->
  grow m (hput k (HashValue v sub) m).
Proof.
  intros m k v sub C k' v' l E. destruct (str_eqb k' k) eqn:Q.
  - apply str_eqb_eq in Q. subst. destruct (C _ _ E) as (l' & -> & I). rewrite hget_hput_same. eauto.
  - rewrite hget_hput_other; [exists v', l; split; auto; apply incl_refl|]. intros ->. rewrite str_eqb_refl in Q. discriminate.
Qed.

(** the entries along the names of an array of tables *)
Fixpoint walk (m : vmap) (fk : str) (ks : list str) : Prop :=
  match ks with
  | k :: ((k1 :: _) as ks') => (exists v l, hget (fk ++ k) m = Some (HashValue v (Keys l)) /\ In k1 l) /\ walk m ((fk ++ k) ++ lit ".") ks'
  | _ => True
  end.
Lemma walk_grow : forall m m', grow m m' -> forall ks fk, walk m fk ks -> walk m' fk ks.
Proof.
  intros m m' G. induction ks as [|k [|k1 ks] IH]; intros fk X; auto. destruct X as [(v & l & E & I) X]. split; [|apply IH; exact X].
  destruct (G _ _ _ E) as (v' & l' & E' & IC). exists v', l'. auto.
Qed.
Lemma gatk_walk : forall m ks fk, Forall name_text ks -> ks <> [] -> dot_end fk -> walk m fk ks ->
  exists f, gatk_arr m ks fk = Ok f /\ dot_end f /\ f ++ last ks [] = fk ++ dotted_name ks.
Proof.
  intros m. induction ks as [|k [|k1 ks] IH]; intros fk F NE DF X; [congruence|exists fk; auto|].
  destruct X as [(v & l & E & I) X]. inversion F as [|? ? N F']; subst.
  destruct (IH ((fk ++ k) ++ lit ".") F' ltac:(discriminate) (dot_end_dot _) X) as (f & G & DE & T). exists f. split; [|split; auto].
  - change (gatk_arr m (k :: k1 :: ks) fk) with (match hget (fk ++ k) m with
      | None => Panic
      | Some hv => let? fk' := match hv.(hv_subkeys) with
          | Count c => if str_eqb (fk ++ k) root_key then Ok [] else Ok ((fk ++ k) ++ idx_str c ++ lit ".")
          | Keys l => if vcontains l k1 || match ks with [] => true | _ => false end
              then (if str_eqb (fk ++ k) root_key then Ok [] else Ok ((fk ++ k) ++ lit ".")) else Panic
          end in gatk_arr m (k1 :: ks) fk' end).
    rewrite E. cbn [hv_subkeys]. apply vcontains_in in I. rewrite I. cbn [orb].
    assert (NR : str_eqb (fk ++ k) root_key = false) by (apply str_eqb_neq, name_not_root; auto). rewrite NR. exact G.
  - change (last (k :: k1 :: ks) []) with (last (k1 :: ks) (@nil _)). rewrite T, (dotted_cons k (k1 :: ks)) by discriminate. rewrite <- !app_assoc. reflexivity.
Qed.

(** ** The stack of tables *)
Record arrd (m : vmap) (t : table) : Prop := {
  a_ne : t <> [];
  a_names : Forall name_text (map wk_key t);
  a_head : header D true (map wk_key t);
  a_last : o = true -> ~ given_key D (last (map wk_key t) []);
  a_root : (exists k, map wk_key t = [k]) \/ exists v l, hget root_key m = Some (HashValue v (Keys l)) /\ In (hd [] (map wk_key t)) l;
  a_walk : walk m [] (map wk_key t) }.
Lemma arrd_grow : forall m m' t, grow m m' -> arrd m t -> arrd m' t.
Proof.
  intros m m' t G []. split; auto; [|eapply walk_grow; eauto]. destruct a_root0 as [X|(v & l & E & I)]; auto.
  right. destruct (G _ _ _ E) as (v' & l' & E' & IC). exists v', l'. auto.
Qed.
Definition astack (m : vmap) (ts : list table_type) (ti : list N) : Prop :=
  ts = [] /\ ti = [] \/ exists t x, ts = [TArrayOf t] /\ ti = [x] /\ arrd m t.
Definition stack (m : vmap) (ts : list table_type) (ti : list N) : Prop :=
  astack m ts ti \/ exists ts0 ti0 t x, ts = vpush ts0 (TStandard t) /\ ti = vpush ti0 x /\ astack m ts0 ti0.
Lemma astack_grow : forall m m' ts ti, grow m m' -> astack m ts ti -> astack m' ts ti.
Proof. intros m m' ts ti G [A|(t & x & -> & -> & A)]; [left; auto|]. right. exists t, x. split; auto. split; auto. eapply arrd_grow; eauto. Qed.
Lemma stack_grow : forall m m' ts ti, grow m m' -> stack m ts ti -> stack m' ts ti.
Proof.
  intros m m' ts ti G [A|(ts0 & ti0 & t & x & -> & -> & A)]; [left; eapply astack_grow; eauto|].
  right. exists ts0, ti0, t, x. split; auto. split; auto. eapply astack_grow; eauto.
Qed.
Lemma astack_len : forall m ts ti, astack m ts ti -> length ti = length ts.
Proof. intros m ts ti [[-> ->]|(t & x & -> & -> & _)]; reflexivity. Qed.
Lemma stack_len : forall m ts ti, stack m ts ti -> length ti = length ts.
Proof. intros m ts ti [A|(ts0 & ti0 & t & x & -> & -> & A)]; [eapply astack_len; eauto|]. rewrite !push_len. f_equal. eapply astack_len; eauto. Qed.
Lemma stack_pop : forall m ts ti, stack m ts ti -> is_top_std_table ts = true -> astack m (vpop ts) (vpop ti).
Proof.
  intros m ts ti [[[-> ->]|(t & x & -> & -> & A)]|(ts0 & ti0 & t & x & -> & -> & A)] T; try discriminate. unfold vpush. rewrite !vpop_last. auto.
Qed.
Lemma stack_top : forall m ts ti, stack m ts ti -> is_top_std_table ts = false -> astack m ts ti.
Proof.
  intros m ts ti [A|(ts0 & ti0 & t & x & -> & -> & A)] T; auto. exfalso. unfold is_top_std_table, vpush in T. rewrite vlast_last in T. discriminate.
Qed.

(** ** The key of the stack *)
Definition key_of (ts : list table_type) (v : bool) (l p : str) (m : vmap) : Prop :=
  ts = [] /\ v = true /\ l = [] /\ p = root_key \/
  exists t x, ts = [TArrayOf t] /\ p = dotted_name (map wk_key t) /\ l = p ++ idx_str x /\ (v = false -> hget p m <> None).
Lemma arr_key : forall m ts ti, rooted m -> counted m -> astack m ts ti ->
  (exists v l p, get_array_table_key o m ts ti = Ok (v, l, p) /\ key_of ts v l p m) /\
  forall t y, exists r, get_array_table_key o m (vpush ts (TStandard t)) (vpush ti y) = Ok r.
Proof.
  intros m ts ti (v0 & l0 & R) C A. destruct A as [[-> ->]|(t & x & -> & -> & A)].
  - split; [exists true, [], root_key; split; [reflexivity|left; auto]|]. intros t y. unfold vpush, get_array_table_key.
    cbn [app length gatk_loop vindex nth_error rbind skipn]. destruct (gatk_std _ _ _ _ _) as [[a b] c]. eauto.
  - destruct A as [NE NM HD LS RT WK]. set (names := map wk_key t) in *.
    assert (NN : names <> []) by (intros X; apply map_eq_nil in X; auto).
    destruct (gatk_walk m names [] NM NN ltac:(left; auto) WK) as (f & G & DE & T). cbn [app] in T.
    assert (GA : gatk_arr m (skipn 0 (get_last_keys t)) [] = Ok f).
    { cbn [skipn]. unfold get_last_keys. fold names. destruct names as [|k ks] eqn:EN; [congruence|].
      change (gatk_arr m (root_key :: k :: ks) []) with (match hget root_key m with
        | None => Panic
        | Some hv => let? fk' := match hv.(hv_subkeys) with
            | Count c => if str_eqb root_key root_key then Ok [] else Ok (root_key ++ idx_str c ++ lit ".")
            | Keys l => if vcontains l k || match ks with [] => true | _ => false end
                then (if str_eqb root_key root_key then Ok [] else Ok (root_key ++ lit ".")) else Panic
            end in gatk_arr m (k :: ks) fk' end).
      rewrite R. cbn [hv_subkeys]. rewrite str_eqb_refl.
      assert (Q : vcontains l0 k || match ks with [] => true | _ => false end = true).
      { destruct RT as [(k0 & Z)|(v1 & l1 & Z & I)]; [inversion Z; subst; apply Bool.orb_true_r|].
        rewrite R in Z. inversion Z; subst. cbn [hd] in I. apply vcontains_in in I. rewrite I. reflexivity. }
      rewrite Q. exact G. }
    set (p := dotted_name names) in *.
    assert (LK : f ++ last (get_last_keys t) [] = p).
    { unfold get_last_keys. fold names. destruct names; [congruence|]. exact T. }
    assert (X : forall ti' i, nth_error ti' i <> None -> exists d, match hget p m with
      | Some hv => match hv.(hv_subkeys) with Count c => dec_usize o c | Keys _ => vindex ti' i end
      | None => vindex ti' i end = Ok d).
    { intros ti' i NI. assert (V : exists d, vindex ti' i = Ok d) by (unfold vindex; destruct (nth_error ti' i); [eauto|congruence]).
      destruct (hget p m) as [[v1 sub]|] eqn:E; auto. cbn [hv_subkeys]. destruct sub as [c|]; auto. unfold dec_usize.
      destruct (c =? 0) eqn:Z; eauto. destruct o; eauto. exfalso.
      assert (LN : name_text (last names [])) by (rewrite Forall_forall in NM; apply NM; destruct (exists_last NN) as (u & z & Q); rewrite Q, last_last; apply in_or_app; right; left; auto).
      assert (LG : ~ given_key D (last names [])) by auto.
      eapply (not_given D f (last names [])); eauto. rewrite T. apply (C _ _ _ E). lia. }
    split.
    + destruct (X [x] 0%nat ltac:(discriminate)) as (d & XD).
      do 3 eexists. split.
      * unfold get_array_table_key. cbn [length gatk_loop]. unfold vindex at 1. cbn [nth_error rbind]. rewrite GA. cbn [rbind]. rewrite LK, XD. cbn [rbind Nat.ltb Nat.leb Nat.sub]. reflexivity.
      * right. exists t, d. split; auto. split; auto. split; auto. intros V E. rewrite E in V. discriminate.
    + intros u y. destruct (X (vpush [x] y) 0%nat ltac:(discriminate)) as (d & XD). unfold get_array_table_key, vpush in *. cbn [length gatk_loop app] in *.
      unfold vindex at 1. cbn [nth_error rbind]. rewrite GA. cbn [rbind]. rewrite LK, XD. cbn [rbind Nat.ltb Nat.leb Nat.sub].
      unfold vindex. cbn [nth_error rbind]. destruct (gatk_std _ _ _ _ _) as [[a b] c]. eexists. reflexivity.
Qed.

Record K (s : pst) : Prop := {
  d_stack : stack s.(p_map) s.(p_tables) s.(p_tindex);
  d_root : rooted s.(p_map);
  d_count : counted s.(p_map);
  d_listed : listed nowhere s.(p_map);
  d_given : vgiven s.(p_map);
  d_err : s.(p_array_error) = true -> s.(p_errors) <> [];
  d_ovf : s.(p_ovf) = o }.

Lemma stack_key : forall m ts ti, rooted m -> counted m -> stack m ts ti -> exists r, get_array_table_key o m ts ti = Ok r.
Proof.
  intros m ts ti R C [A|(ts0 & ti0 & t & x & -> & -> & A)]; destruct (arr_key m _ _ R C A) as [(v & l & p & E & _) F]; eauto.
Qed.
Lemma stack_full : forall s kc, K s -> exists r, get_full_key s.(p_ovf) s.(p_map) s.(p_tables) s.(p_tindex) kc = Ok r.
Proof.
  intros s kc []. rewrite d_ovf0. unfold get_full_key. destruct (stack_key _ _ _ d_root0 d_count0 d_stack0) as [[[a b] c] ->]. cbn [rbind].
  destruct (get_keychain_key kc). destruct b; eauto.
Qed.

Lemma keys_apart : forall s kc x, K s -> s.(p_keychain) = kc ++ [x] -> put_ok D kc x ->
  exists fk pk, keyval_keys s = Ok (fk, pk) /\ given fk /\ match x with KIndex _ => of_array D pk | _ => True end.
Proof.
  intros s kc x [S R C _ _ _ O] E PO. destruct (chain_keys D kc x PO) as (ck & pck & CK & GV & BD).
  assert (Z : exists fk pk v, get_full_key (p_ovf s) (p_map s) (p_tables s) (p_tindex s) (p_keychain s) = Ok (v, fk, pk) /\
    given fk /\ match x with KIndex _ => of_array D pk | _ => True end).
  { unfold get_full_key. rewrite O. destruct (stack_key _ _ _ R C S) as [[[v ak] p] ->]. cbn [rbind]. rewrite E, CK.
    destruct ak as [|c ak]; [do 3 eexists; split; [reflexivity|]; auto|]. do 3 eexists. split; [reflexivity|].
    split; [apply given_under; auto|]. destruct x; auto. destruct pck as [|c' pck]; [destruct (array_ne _ _ BD eq_refl)|].
    apply array_under. auto. }
  unfold keyval_keys. destruct (p_last_table s) as [[t|t]|].
  - unfold get_full_key. rewrite gatk_push by (eapply stack_len; exact S). destruct Z as (fk & pk & v & Z & GV' & BD'). unfold get_full_key in Z. rewrite Z.
    cbn [rbind]. eauto.
  - destruct Z as (fk & pk & v & -> & GV' & BD'). cbn [rbind]. eauto.
  - rewrite E, CK. do 2 eexists. split; [reflexivity|]. split; auto. destruct x; auto.
    destruct pck as [|c' pck]; [destruct (array_ne _ _ BD eq_refl)|exact BD].
Qed.
Lemma update_apart : forall m pk kc x, rooted m -> counted m -> listed nowhere m -> vgiven m -> match x with KIndex _ => of_array D pk | _ => True end ->
  (forall n, x = KStr n -> given_key D n) ->
  exists m', update_parent m pk (kc ++ [x]) = Ok m' /\ rooted m' /\ counted m' /\ listed nowhere m' /\ vgiven m' /\ grow m m'.
Proof.
  intros m pk kc x R C L V B GK. destruct (update_calm D at_array m pk kc x R C B) as (m' & E & R' & C'). exists m'. split; auto. split; auto. split; auto.
  clear R' C'. unfold update_parent in E. rewrite vlast_last in E. destruct (hget pk m) as [[v sub]|] eqn:H.
  - cbn [hv_subkeys hv_value] in E. destruct sub as [c|l].
    + inversion E; subst. split; [apply listed_count; auto|]. split; [apply (vgiven_same m pk _ _ V H)|].
      apply grow_put. intros v0 l X. congruence.
    + destruct x as [n|i]; inversion E; subst; [|split; auto; split; auto; apply grow_refl].
      split; [eapply listed_add; eauto; intros _ _ X; destruct (X (GK n eq_refl))|]. split; [apply (vgiven_same m pk _ _ V H)|].
      apply grow_put. intros v0 l0 X. rewrite H in X. inversion X; subst. eexists. split; [reflexivity|]. apply vinsert_incl.
  - destruct x as [n|i]; inversion E; subst.
    + split; [|split; [apply vgiven_put; auto; intros []|apply grow_put; congruence]].
      apply listed_put; auto. intros l n0 X _ I _ NG. inversion X; subst. destruct I as [<-|[]]. destruct (NG (GK n eq_refl)).
    + split; [apply listed_count; auto|split; [apply vgiven_put; auto; intros []|apply grow_put; congruence]].
Qed.
Lemma good_valued : forall c v, to_val c.(c_val) = Ok v -> valued (Some c).
Proof. intros c v H E. rewrite E in H. discriminate. Qed.
Lemma insert_apart : forall s kc x c v, K s -> s.(p_keychain) = kc ++ [x] -> put_ok D kc x -> to_val c.(c_val) = Ok v ->
  exists s', insert_keyval_into_map s c = Ok s' /\ K s' /\ s'.(p_keychain) = s.(p_keychain).
Proof.
  intros s kc x c v H E PO TV. unfold insert_keyval_into_map. destruct (keys_apart _ _ _ H E PO) as (fk & pk & -> & GV & BD). cbn [rbind].
  destruct H as [S R C L V ER O]. rewrite E.
  assert (GK : forall n, x = KStr n -> given_key D n) by (intros n ->; apply PO).
  assert (M : forall m, rooted m -> counted m -> listed nowhere m -> vgiven m -> grow (p_map s) m ->
    exists m', update_parent m pk (kc ++ [x]) = Ok m' /\ rooted m' /\ counted m' /\ listed nowhere m' /\ vgiven m' /\ grow (p_map s) m').
  { intros m R0 C0 L0 V0 G0. destruct (update_apart m pk kc x R0 C0 L0 V0 BD GK) as (m' & E' & A1 & A2 & A3 & A4 & A5). exists m'.
    repeat (split; auto). eapply grow_trans; eauto. }
  assert (VC : valued (Some c)) by (eapply good_valued; eauto).
  destruct (hget fk (p_map s)) as [[[c0|] sub]|] eqn:HG.
  - rewrite TV. cbn [rbind]. eexists. split; [reflexivity|]. split; auto. split; auto. intros _. cbn. unfold vpush. destruct (p_errors s); discriminate.
  - destruct (M (hput fk (HashValue (Some c) sub) (p_map s))) as (m' & -> & R' & C' & L' & V' & G').
    { eapply rooted_same; eauto. cbn. destruct sub; auto. }
    { apply counted_put; auto. intros n ->. destruct (C _ _ _ HG) as [_ X]. split; auto. }
    { eapply listed_same; eauto. }
    { apply vgiven_put; auto. }
    { apply grow_put. intros v0 l X. rewrite HG in X. inversion X; subst. exists l. split; auto. apply incl_refl. }
    cbn [rbind]. eexists. split; [reflexivity|]. split; auto. split; cbn; auto. eapply stack_grow; eauto.
  - match goal with |- context [update_parent ?x _ _] => destruct (M x) as (m' & -> & R' & C' & L' & V' & G') end.
    { apply rooted_new; auto. }
    { destruct (c_val c) eqn:CV; try (apply counted_put; auto; intros n X; inversion X; subst; split; auto; fail). }
    { destruct (c_val c); first [apply listed_count; auto|apply listed_empty; auto]. }
    { destruct (c_val c); apply vgiven_put; auto. }
    { destruct (c_val c); apply grow_put; congruence. }
    cbn [rbind]. eexists. split; [reflexivity|]. split; auto. split; cbn; auto. eapply stack_grow; eauto.
Qed.
Lemma apart_kept : kept D K.
Proof.
  split.
  - intros kc s []. split; auto.
  - intros e s []. split; auto. intros _. cbn. unfold vpush. destruct (p_errors s); discriminate.
  - intros a s []. split; auto.
  - intros a s []. split; auto.
  - intros a s []. split; auto.
  - intros e s [] NE. split; auto.
  - intros s []. auto.
  - exact stack_full.
  - exact insert_apart.
Qed.
Local Notation H := (H K).

(** ** The implicit tables of a header *)
Definition upto_name (names a : list str) : Prop := a <> [] /\ exists r, r <> [] /\ names = a ++ r.
Definition above (lk : str) : str := if str_eqb lk root_key then [] else lk ++ lit ".".
Lemma above_dot : forall lk, dot_end (above lk).
Proof. intros lk. unfold above. destruct (str_eqb lk root_key); [left; auto|apply dot_end_dot]. Qed.
Lemma under_above : forall lk n, under lk n = above lk ++ n.
Proof. intros lk n. unfold under, above. destruct (str_eqb lk root_key); [reflexivity|]. rewrite <- app_assoc. reflexivity. Qed.
Lemma below_ne : forall lk k r, name_text k -> lk <> above lk ++ k ++ r.
Proof.
  intros lk k r NT E. unfold above in E. destruct (str_eqb lk root_key) eqn:Q.
  - apply str_eqb_eq in Q. cbn [app] in E. destruct (name_key_start k r NT) as (c & y & X & C). rewrite X, Q in E. inversion E; subst.
    destruct C as [C|C]; [discriminate|vm_compute in C; discriminate].
  - assert (L : length lk = length ((lk ++ lit ".") ++ k ++ r)) by (f_equal; exact E). rewrite !app_length in L. cbn in L. lia.
Qed.
Lemma dotted_more : forall k a, a <> [] -> forall b, ((b ++ k) ++ lit ".") ++ dotted_name a = b ++ dotted_name (k :: a).
Proof. intros k a NE b. rewrite dotted_cons by auto. rewrite <- !app_assoc. reflexivity. Qed.

Lemma ait_apart : forall ks m first lk, ks <> [] -> rooted m -> counted m -> listed nowhere m -> vgiven m ->
  (first = false -> forall hv c, hget lk m = Some hv -> hv.(hv_subkeys) <> Count c) ->
  lk <> [] -> Forall name_text (map wk_key ks) ->
  (forall a, upto_name (map wk_key ks) a -> key_has_value m (above lk ++ dotted_name a) = false /\ ~ bad (above lk ++ dotted_name a)) ->
  exists m', ait_loop m ks first lk = Ok m' /\ rooted m' /\ counted m' /\ vgiven m' /\ calmer m m' /\
    listed (eq (above lk ++ dotted_name (map wk_key ks))) m' /\
    (forall x v l, hget x m = Some (HashValue v (Keys l)) -> (forall r, x <> above lk ++ hd [] (map wk_key ks) ++ r) ->
       exists v' l', hget x m' = Some (HashValue v' (Keys l')) /\ incl l l') /\
    ((exists v l, hget lk m = Some (HashValue v (Keys l))) -> (forall n, In n (removelast (map wk_key ks)) -> ~ given_key D n) ->
       (exists v l, hget lk m' = Some (HashValue v (Keys l)) /\ In (hd [] (map wk_key ks)) l) /\ walk m' (above lk) (map wk_key ks)).
Proof.
  induction ks as [|k ks IH]; intros m first lk NE R C L V FI LN F UP; [congruence|]. clear NE. cbn [ait_loop].
  cbn [map] in F. inversion F as [|? ? NK F']; subst. set (lk' := above lk ++ wk_key k) in *.
  assert (X : exists m1 ins first', match hget lk m with
    | Some hv => match hv.(hv_subkeys) with
        | Keys l => let (l', ins) := vinsert l k.(wk_key) in Ok (hput lk (HashValue hv.(hv_value) (Keys l')) m, ins, false)
        | Count c => if first then Ok (hput lk (HashValue hv.(hv_value) (Count (c + 1))) m, true, false) else Panic
        end
    | None => Ok (m, false, first)
    end = Ok (m1, ins, first') /\ rooted m1 /\ counted m1 /\ vgiven m1 /\ calmer m m1 /\ grow m m1 /\
      listed (eq lk') m1 /\ (ins = false -> listed nowhere m1) /\
      (forall v l, hget lk m = Some (HashValue v (Keys l)) -> (exists l', hget lk m1 = Some (HashValue v (Keys l')) /\ In (wk_key k) l') /\
         (ins = false -> In (wk_key k) l))).
  { destruct (hget lk m) as [[v sub]|] eqn:E.
    - cbn [hv_subkeys hv_value]. destruct sub as [c|l].
      + destruct first; [|destruct (FI eq_refl _ c eq_refl eq_refl)]. do 3 eexists. split; [reflexivity|].
        split; [eapply rooted_same; eauto; cbn; auto|]. split; [apply (counted_more _ _ m lk _ c C E eq_refl)|]. split; [apply (vgiven_same m lk _ _ V E)|].
        split; [apply (calmer_same m lk _ _ E)|]. split; [apply grow_put; intros; congruence|].
        split; [eapply listed_more; [apply listed_count; exact L|intros k0 []]|]. split; [discriminate|]. intros v0 l Z. inversion Z.
      + destruct (vinsert l (wk_key k)) as [l' ins] eqn:VI. assert (VI1 : l' = fst (vinsert l (wk_key k))) by (rewrite VI; auto).
        do 3 eexists. split; [reflexivity|]. split; [eapply rooted_same; eauto; cbn; auto|]. split; [apply counted_keys; auto|]. split; [apply (vgiven_same m lk _ _ V E)|].
        split; [apply (calmer_same m lk _ _ E)|].
        split; [apply grow_put; intros v0 l0 Z; rewrite E in Z; inversion Z; subst; eexists; split; [reflexivity|apply vinsert_incl]|].
        split; [|split].
        * rewrite VI1. eapply listed_add; [eapply listed_more; [exact L|intros k0 []]|exact E|]. intros _ _ _. left. rewrite under_above. reflexivity.
        * intros ->. unfold vinsert in VI. destruct (vcontains l (wk_key k)); inversion VI as [Q]. rewrite <- Q. eapply listed_same; [exact L|exact E].
        * intros v0 l0 Z. inversion Z; subst. split; [eexists; split; [apply hget_hput_same|apply vinsert_has]|].
          intros ->. unfold vinsert in VI. destruct (vcontains l0 (wk_key k)) eqn:VC; inversion VI; subst. apply vcontains_in. auto.
    - do 3 eexists. split; [reflexivity|]. split; auto. split; auto. split; auto. split; [apply calmer_refl|]. split; [apply grow_refl|].
      split; [eapply listed_more; [exact L|intros k0 []]|]. split; auto. intros v l Z. discriminate. }
  destruct X as (m1 & ins & first' & X & R1 & C1 & V1 & M1 & G1 & L1 & L1' & I1). rewrite X. cbn [rbind]. clear X. destruct ks as [|k2 ks].
  { exists m1. split; auto. split; auto. split; auto. split; auto. split; auto. split; [exact L1|]. split; [intros x v l E _; apply G1 in E; exact E|].
    intros (v & l & E) _. destruct (I1 _ _ E) as [(l' & E' & I) _]. cbn [map hd walk]. split; eauto. }
  assert (LK : (if str_eqb lk root_key then k.(wk_key) else lk ++ lit "." ++ k.(wk_key)) = lk').
  { unfold lk'. rewrite <- under_above. reflexivity. }
  rewrite LK. assert (NR : str_eqb lk' root_key = false) by (apply str_eqb_neq, name_not_root; auto).
  assert (AB : above lk' = lk' ++ lit ".") by (unfold above; rewrite NR; reflexivity).
  assert (U1 : upto_name (map wk_key (k :: k2 :: ks)) [wk_key k]) by (split; [discriminate|]; exists (map wk_key (k2 :: ks)); split; [discriminate|reflexivity]).
  destruct (UP _ U1) as [KV KB]. cbn [dotted_name] in KV, KB. fold lk' in KV, KB.
  set (m2 := if ins then hput lk' hv_none_keys m1 else m1).
  assert (R2 : rooted m2) by (unfold m2; destruct ins; auto; apply rooted_put; eauto).
  assert (C2 : counted m2) by (unfold m2; destruct ins; auto; apply counted_keys; auto).
  assert (V2 : vgiven m2) by (unfold m2; destruct ins; auto; apply vgiven_put; auto; intros []).
  assert (M2 : calmer m m2) by (eapply calmer_trans; [exact M1|]; unfold m2; destruct ins; [|apply calmer_refl]; apply calmer_put; intros _ []).
  assert (L2 : listed nowhere m2).
  { unfold m2. destruct ins; [|apply L1'; auto]. eapply listed_more; [apply listed_empty; exact L1|]. intros x <-. right. rewrite hget_hput_same. discriminate. }
  destruct (IH m2 first' lk') as (m' & E & R' & C' & V' & M' & L' & G' & W'); auto.
  - discriminate.
  - intros _ hv c HG. eapply no_count; eauto.
  - unfold lk'. intros Z. apply app_eq_nil in Z as [_ Z]. eapply name_not_nil; eauto.
  - intros a (NA & r & NR' & EA). rewrite AB. unfold lk'. rewrite dotted_more by auto.
    assert (UA : upto_name (map wk_key (k :: k2 :: ks)) (wk_key k :: a)) by (split; [discriminate|]; exists r; split; auto; cbn [app]; rewrite <- EA; reflexivity).
    destruct (UP _ UA) as [K1 K2]. split; auto.
  - assert (TX : above lk' ++ dotted_name (map wk_key (k2 :: ks)) = above lk ++ dotted_name (map wk_key (k :: k2 :: ks))).
    { rewrite AB. unfold lk'. apply dotted_more. discriminate. }
    rewrite TX in L'.
    assert (FR : forall x, (forall r, x <> above lk ++ wk_key k ++ r) -> forall v l, hget x m1 = Some (HashValue v (Keys l)) ->
      exists v' l', hget x m' = Some (HashValue v' (Keys l')) /\ incl l l').
    { intros x XN v l HX. apply (G' x v l).
      - unfold m2. destruct ins; auto. rewrite hget_hput_other; auto. intros Z. apply (XN []). rewrite app_nil_r. unfold lk' in Z. auto.
      - intros r. rewrite AB. unfold lk'. rewrite <- !app_assoc. apply XN. }
    exists m'. split; auto. split; auto. split; auto. split; auto. split; [eapply calmer_trans; eauto|]. split; auto. split.
    + intros x v l HX XN. destruct (G1 _ _ _ HX) as (v1 & l1 & HX1 & IC1). destruct (FR x XN _ _ HX1) as (v2 & l2 & HX2 & IC2).
      exists v2, l2. split; auto. eapply incl_tran; eauto.
    + intros (v & l & HL) NG. destruct (I1 _ _ HL) as [(l' & HL1 & IN1) IL].
      assert (NGK : ~ given_key D (wk_key k)) by (apply NG; left; reflexivity).
      assert (E2 : exists v l, hget lk' m2 = Some (HashValue v (Keys l))).
      { unfold m2. destruct ins; [rewrite hget_hput_same; eexists; eexists; reflexivity|].
        destruct (L1' eq_refl lk v l' (wk_key k) HL1 LN IN1 NK NGK) as [[]|Z]. rewrite under_above in Z. fold lk' in Z.
        destruct (hget lk' m1) as [[v1 [c|l1]]|] eqn:Q; [|eauto|congruence]. exfalso. exact (no_count D at_array m1 lk' _ c C1 (M1 _ KV) KB Q eq_refl). }
      destruct (W' E2) as [(v3 & l3 & H3 & I3) WK].
      { intros n I. apply NG. change (map wk_key (k :: k2 :: ks)) with (wk_key k :: map wk_key (k2 :: ks)). cbn [removelast map] in *. right. exact I. }
      split.
      * destruct (FR lk (fun r => below_ne lk (wk_key k) r NK) _ _ HL1) as (v4 & l4 & H4 & I4). exists v4, l4. split; auto.
      * change (map wk_key (k :: k2 :: ks)) with (wk_key k :: wk_key k2 :: map wk_key ks). cbn [walk]. fold lk'. rewrite AB in WK. split; [eauto|exact WK].
Qed.

(** ** The actions on headers *)
Lemma dotted_split : forall a r, a <> [] -> r <> [] -> dotted_name (a ++ r) = dotted_name a ++ lit "." ++ dotted_name r.
Proof.
  induction a as [|k [|k2 a] IH]; intros r NA NR; [congruence| |].
  - change ([k] ++ r) with (k :: r). rewrite dotted_cons by auto. reflexivity.
  - change ((k :: k2 :: a) ++ r) with (k :: ((k2 :: a) ++ r)). rewrite !dotted_cons by discriminate. rewrite IH by (auto; discriminate).
    rewrite <- !app_assoc. reflexivity.
Qed.
Lemma dotted_end : forall a, a <> [] -> exists p, dotted_name a = p ++ last a [] /\ dot_end p.
Proof.
  intros a NE. destruct (exists_last NE) as (b & n & ->). rewrite last_last. destruct b as [|k b].
  - exists []. split; [reflexivity|left; auto].
  - exists (dotted_name (k :: b) ++ lit "."). rewrite dotted_split by discriminate. rewrite <- app_assoc. split; [reflexivity|apply dot_end_dot].
Qed.
Lemma std_names : forall m ks v fk pk v' fk' pk', Forall name_text ks -> ks <> [] -> gatk_std m ks v fk pk = (v', fk', pk') ->
  fk' ++ last ks [] = fk ++ dotted_name ks /\
  (v' = true -> v = true /\ forall a, upto_name ks a -> key_has_value m (fk ++ dotted_name a) = false) /\
  pk' = match ks with [_] => pk | _ => fk ++ dotted_name (removelast ks) end.
Proof.
  intros m. induction ks as [|k [|k2 ks] IH]; intros v fk pk v' fk' pk' F NE E; [congruence| |].
  - cbn in E. inversion E; subst. split; [reflexivity|]. split; [|reflexivity]. intros ->. split; auto.
    intros a (NA & r & NR & Q). exfalso. assert (LQ : length [k] = length (a ++ r)) by (f_equal; exact Q). rewrite app_length in LQ. destruct a; [congruence|]. destruct r; [congruence|]. cbn in LQ. lia.
  - change (gatk_std m (k :: k2 :: ks) v fk pk) with (if str_eqb k root_key then gatk_std m (k2 :: ks) v fk pk else
      gatk_std m (k2 :: ks) (v && negb (key_has_value m (fk ++ k))) ((fk ++ k) ++ lit ".") match ks with [] => fk ++ k | _ => pk end) in E.
    inversion F as [|? ? NK F']; subst. assert (NR : str_eqb k root_key = false) by (apply str_eqb_neq, (name_not_root []); auto). rewrite NR in E.
    apply IH in E as (E1 & E2 & E3); auto; [|discriminate]. split; [|split].
    + change (last (k :: k2 :: ks) []) with (last (k2 :: ks) (@nil _)). rewrite E1. apply dotted_more. discriminate.
    + intros V. destruct (E2 V) as [X Y]. apply andb_prop in X as [X1 X2]. split; auto. intros [|k0 a] (NA & r & NR' & Q); [congruence|].
      cbn [app] in Q. inversion Q; subst k0. destruct a as [|k3 a].
      * cbn [dotted_name]. destruct (key_has_value m (fk ++ k)); auto; discriminate.
      * rewrite <- dotted_more by discriminate. apply Y. split; [discriminate|]. exists r. split; auto.
    + rewrite E3. destruct ks as [|k3 ks]; [reflexivity|].
      change (removelast (k :: k2 :: k3 :: ks)) with (k :: removelast (k2 :: k3 :: ks)). apply dotted_more. discriminate.
Qed.
Lemma implicit_apart : forall m t, tt_table t <> [] -> rooted m -> counted m -> listed nowhere m -> vgiven m -> Forall name_text (map wk_key (tt_table t)) ->
  (forall a, upto_name (map wk_key (tt_table t)) a -> key_has_value m (dotted_name a) = false /\ ~ bad (dotted_name a)) ->
  exists m', add_implicit_tables o m [] [] t = Ok m' /\ rooted m' /\ counted m' /\ vgiven m' /\ calmer m m' /\
    listed (eq (dotted_name (map wk_key (tt_table t)))) m' /\
    ((forall n, In n (removelast (map wk_key (tt_table t))) -> ~ given_key D n) ->
       (exists v l, hget root_key m' = Some (HashValue v (Keys l)) /\ In (hd [] (map wk_key (tt_table t))) l) /\ walk m' [] (map wk_key (tt_table t))).
Proof.
  intros m t NE R C L V F UP. unfold add_implicit_tables. cbn [get_array_table_key length gatk_loop rbind negb vlast].
  cbn [get_array_table_key gatk_loop length rbind negb app]. unfold get_array_table_key. cbn [gatk_loop length rbind negb app]. rewrite str_eqb_refl. cbn [Nat.sub skipn].
  assert (AR : above root_key = []) by reflexivity.
  destruct (ait_apart (tt_table t) m true root_key NE R C L V) as (m' & E & R' & C' & V' & M' & L' & _ & W'); auto; try discriminate.
  exists m'. rewrite AR in *. cbn [app] in *. repeat (split; auto). all: intros; destruct R as (v & l & R); apply W'; eauto.
Qed.

Lemma under_last : forall names, names <> [] -> Forall name_text names ->
  under (match names with [_] => root_key | _ => dotted_name (removelast names) end) (last names []) = dotted_name names.
Proof.
  intros l NE FN. rewrite under_above. destruct l as [|k [|k2 ks]]; [congruence|reflexivity|].
  set (l := k :: k2 :: ks) in *. assert (LE : l = removelast l ++ [last l []]) by (apply app_removelast_last; discriminate).
  assert (NR : str_eqb (dotted_name (removelast l)) root_key = false).
  { apply str_eqb_neq. destruct (dotted_end (removelast l)) as (p & -> & _); [discriminate|]. apply name_not_root.
    assert (FR : Forall name_text (removelast l)) by (rewrite LE in FN; apply Forall_app in FN as [FN _]; exact FN).
    rewrite Forall_forall in FR. apply FR. destruct (@exists_last _ (removelast l)) as (u & z & Q); [discriminate|]. rewrite Q, last_last. apply in_or_app. right. left. auto. }
  unfold above. rewrite NR. transitivity (dotted_name (removelast l ++ [last l []])); [|rewrite <- LE; reflexivity].
  rewrite dotted_split by discriminate. rewrite <- app_assoc. reflexivity.
Qed.

Section Doc.
Hypothesis APART : apart_headers o D.

Lemma names_clean : forall arr names a, header D arr names -> Forall name_text names -> upto_name names a -> ~ bad (dotted_name a).
Proof using APART.
  intros arr names a HD F (NA & r & NR & E) [B|(p & HP & B)].
  - destruct (dotted_end a NA) as (p & Q & DP). rewrite Q in B.
    assert (LI : In (last a []) (removelast names)).
    { destruct (exists_last NA) as (b & n & Z). rewrite E. rewrite removelast_app by auto. apply in_or_app. left. rewrite Z, last_last. apply in_or_app. right. left. auto. }
    eapply not_array; [exact DP| | |exact B].
    + rewrite Forall_forall in F. apply F. rewrite E. apply in_or_app. left. destruct (exists_last NA) as (b & n & Z). rewrite Z, last_last. apply in_or_app. right. left. auto.
    + eapply (apart_arrays _ _ APART); eauto.
  - assert (X : lit "." ++ dotted_name r = []); [|discriminate].
    apply (apart_texts _ _ APART arr p names); auto. rewrite E, dotted_split, B by auto. reflexivity.
Qed.

Lemma std_apart : forall w1 w2 k subkeys s, K s -> length s.(p_keychain) = S (length subkeys) ->
  Forall name_text (k :: map wk_key subkeys) -> header D false (k :: map wk_key subkeys) ->
  exists s' t, std_table_act w1 w2 k subkeys s = Ok (s', t) /\ H [] s'.
Proof using APART.
  intros w1 w2 k subkeys s H0 LC FN HD. unfold std_table_act.
  unfold keychain_drop. rewrite LC, Nat.ltb_irrefl, Nat.sub_diag. cbn [rbind firstn]. destruct H0 as [SK R C L V E O].
  cbn [set_keychain p_tables p_tindex p_map p_ovf].
  set (tbl := table_new _ _ _). set (res := TStandard tbl).
  assert (TN : map wk_key tbl = k :: map wk_key subkeys) by reflexivity.
  (* the top is removed *)
  assert (A : exists ts ti, (if is_top_std_table (p_tables s) || equal_key_length res (p_tables s)
    then (vpop (p_tables s), vpop (p_tindex s)) else (p_tables s, p_tindex s)) = (ts, ti) /\ astack (p_map s) ts ti).
  { destruct (is_top_std_table (p_tables s)) eqn:TS; cbn [orb].
    - do 2 eexists. split; [reflexivity|]. eapply stack_pop; eauto.
    - pose proof (stack_top _ _ _ SK TS) as A. destruct (equal_key_length _ _); do 2 eexists; (split; [reflexivity|]); auto.
      destruct A as [[-> ->]|(t & x & -> & -> & A)]; left; auto. }
  destruct A as (ts & ti & -> & A).
  (* nothing remains, or an array of tables of the same name *)
  assert (B : exists ts2 ti2, match vlast ts with
    | None => (ts, ti)
    | Some l => if str_eqb (format_tt_keys res) (format_tt_keys l) then (ts, ti)
        else if is_subtable_of res l then (ts, ti)
        else let (a, b) := pop_until_sub res (rev ts) (rev ti) in (rev a, rev b)
    end = (ts2, ti2) /\ (ts2 = [] /\ ti2 = [] \/
      astack (p_map s) ts2 ti2 /\ match vlast ts2 with Some l => str_eqb (format_tt_keys res) (format_tt_keys l) | None => false end = true)).
  { destruct A as [[-> ->]|(t & x & -> & -> & A)]; [do 2 eexists; split; [reflexivity|left; auto]|].
    change (vlast [TArrayOf t]) with (Some (TArrayOf t)). cbv iota. destruct (str_eqb (format_tt_keys res) (format_tt_keys (TArrayOf t))) eqn:Q; [do 2 eexists; split; [reflexivity|]; right; split; [right; eauto|exact Q]|].
    destruct (is_subtable_of res (TArrayOf t)) eqn:SB; [|do 2 eexists; split; [reflexivity|left; auto]]. exfalso.
    unfold is_subtable_of in SB. apply starts_with_app in SB as (r & SB). rewrite !format_dotted in SB. cbn [tt_table res] in SB. rewrite TN in SB.
    assert (RN : r = []) by (eapply (apart_texts _ _ APART); [apply (a_head _ _ A)|exact HD|exact SB]).
    subst r. rewrite app_nil_r in SB. unfold format_tt_keys in Q. rewrite !format_dotted in Q. cbn [tt_table res] in Q. rewrite TN, SB, str_eqb_refl in Q. discriminate. }
  destruct B as (ts2 & ti2 & -> & B). clear A ts ti.
  destruct B as [[-> ->]|[B EQ]].
  2: { rewrite EQ. cbn [rbind]. destruct (arr_key (p_map s) _ _ R C B) as [_ KEY]. destruct (KEY tbl 0) as [[[a b] c] KE]. fold res in KE. rewrite O, KE. cbn [rbind].
    do 2 eexists. split; [reflexivity|]. split; [|reflexivity]. split; cbn; auto; [left; auto|]. intros _. unfold vpush. destruct (p_errors s); discriminate. }
  change (vlast (@nil table_type)) with (@None table_type). cbv iota.
  set (names := k :: map wk_key subkeys) in *. set (T := dotted_name names) in *.
  destruct (gatk_std (p_map s) names true [] root_key) as [[v' fk'] pk] eqn:GS.
  assert (KEY : get_array_table_key o (p_map s) (vpush [] res) (vpush [] 0) = Ok (v' && negb (key_has_value (p_map s) T), T, pk)).
  { unfold vpush, get_array_table_key. cbn [app length gatk_loop vindex nth_error rbind skipn]. unfold res. cbn [rbind]. unfold get_last_keys. rewrite TN. cbn [skipn].
    change (gatk_std (p_map s) (root_key :: names) true [] root_key) with
      (if str_eqb root_key root_key then gatk_std (p_map s) names true [] root_key else
       gatk_std (p_map s) names (true && negb (key_has_value (p_map s) ([] ++ root_key))) (([] ++ root_key) ++ lit ".")
         match map wk_key subkeys with [] => [] ++ root_key | _ => root_key end).
    rewrite str_eqb_refl, GS. apply std_names in GS as (Q & _); [|auto|discriminate]. cbn [app] in Q.
    change (last (root_key :: names) []) with (last names (@nil _)). rewrite Q. reflexivity. }
  apply std_names in GS as (_ & CL & PK); [|auto|discriminate]. cbn [app] in CL, PK.
  rewrite O, KEY. cbn [rbind].
  assert (PKC : forall m' hv c, v' = true -> rooted m' -> counted m' -> calmer (p_map s) m' -> hget pk m' = Some hv -> hv.(hv_subkeys) <> Count c).
  { intros m' hv c V' R' C' M' HG. unfold names in PK. destruct (map wk_key subkeys) as [|k2 ks] eqn:EK.
    - subst pk. destruct R' as (v0 & l0 & R'). rewrite R' in HG. inversion HG; subst. discriminate.
    - assert (UA : upto_name names (removelast names)).
      { unfold names. split; [discriminate|]. exists [last (k2 :: ks) []]. split; [discriminate|]. rewrite (app_removelast_last (l := k :: k2 :: ks) []) at 1 by discriminate. reflexivity. }
      destruct (CL V') as [_ CV]. subst pk. eapply no_count; [exact C'| | |exact HG]; [apply M', CV; exact UA|]. eapply names_clean; [exact HD|exact FN|exact UA]. }
  match goal with |- context [rbind ?x _] => assert (Z : exists e tk' pk', x = Ok (e, tk', pk') /\ (e = false -> tk' = T /\ pk' = pk /\ v' = true /\ key_has_value (p_map s) T = false)) end.
  { destruct (v' && negb (key_has_value (p_map s) T)) eqn:VD; cbn [negb]; [|do 3 eexists; split; [reflexivity|discriminate]].
    apply andb_prop in VD as [V1 V2]. assert (V3 : key_has_value (p_map s) T = false) by (destruct (key_has_value (p_map s) T); auto; discriminate).
    assert (KH : exists b, key_has_children_with_values (p_map s) pk = Ok b).
    { unfold key_has_children_with_values. destruct (str_eqb pk root_key); eauto. destruct (hget pk (p_map s)) as [hv|] eqn:HG; eauto.
      destruct (hv_subkeys hv) eqn:Q; eauto. exfalso. eapply (PKC (p_map s)); eauto. apply calmer_refl. }
    destruct KH as [b ->]. cbn [rbind]. destruct b; do 3 eexists; (split; [reflexivity|]); auto; discriminate. }
  destruct Z as (e & tk' & pk' & -> & Z). cbn [rbind]. destruct e.
  - do 2 eexists. split; [reflexivity|]. split; [|reflexivity]. split; cbn; auto; [left; left; auto|]. intros _. unfold vpush. destruct (p_errors s); discriminate.
  - destruct (Z eq_refl) as (-> & -> & V' & NV). clear Z.
    destruct (implicit_apart (p_map s) res) as (m1 & -> & R1 & C1 & G1 & M1 & L1 & _); auto; try discriminate.
    { cbn [tt_table res]. rewrite TN. fold names. intros a UA. split; [apply CL; auto|]. eapply names_clean; eauto. }
    cbn [tt_table res] in L1. rewrite TN in L1. fold names in L1. fold T in L1.
    cbn [rbind]. match goal with |- context [add_to_table_set m1 [] [] ?x] => assert (TS : exists m2, add_to_table_set m1 [] [] x = Ok m2 /\
      rooted m2 /\ counted m2 /\ calmer m1 m2 /\ listed (eq T) m2 /\ vgiven m2) end.
    { unfold add_to_table_set, get_key_parent. cbn [gkp_loop length rbind]. destruct (hget [] m1) as [[v0 [c|l0]]|] eqn:Q; cbn [hv_subkeys hv_value].
      - exists m1. repeat (split; auto). apply calmer_refl.
      - eexists. split; [reflexivity|]. split; [eapply rooted_same; eauto; cbn; auto|]. split; [apply counted_keys; auto|]. split; [apply (calmer_same m1 [] _ _ Q)|].
        split; [eapply listed_add; eauto; congruence|apply (vgiven_same m1 [] _ _ G1 Q)].
      - exists m1. repeat (split; auto). apply calmer_refl. }
    destruct TS as (m2 & -> & R2 & C2 & M2 & L2 & G2). cbn [rbind]. unfold new_cell. cbn [c_id].
    match goal with |- context [hget pk ?x] => assert (R3 : rooted x /\ counted x /\ calmer m2 x /\ listed nowhere x /\ vgiven x /\ hget T x <> None) end.
    { assert (LN : forall v m, listed (eq T) (hput T v m) -> listed nowhere (hput T v m)).
      { intros v m LT. eapply listed_more; [exact LT|]. intros x <-. right. rewrite hget_hput_same. discriminate. }
      destruct (hget T m2) as [[v0 sub]|] eqn:Q; cbn [hv_subkeys].
      - split; [eapply rooted_same; eauto; cbn; destruct sub; auto|]. split; [|split; [|split; [|split]]].
        + apply counted_put; auto. intros c ->. destruct (C2 _ _ _ Q) as [X Y]. split; auto. destruct X as [X|X]; auto.
          exfalso. eapply no_value; [|exact Q|exact X]. apply M2, M1. exact NV.
        + apply calmer_put. intros _ X. apply X. reflexivity.
        + apply LN. eapply listed_same; eauto.
        + apply vgiven_put; auto. intros X. destruct (X eq_refl).
        + rewrite hget_hput_same. discriminate.
      - split; [apply rooted_new; auto|]. split; [apply counted_keys; auto|]. split; [apply calmer_put; intros _ X; apply X; reflexivity|].
        split; [apply LN, listed_empty; auto|]. split; [apply vgiven_put; auto; intros X; destruct (X eq_refl)|]. rewrite hget_hput_same. discriminate. }
    destruct R3 as (R3 & C3 & M3 & L3 & G3 & T3). set (m3 := match hget T m2 with Some hv => _ | None => _ end) in *.
    assert (M : calmer (p_map s) m3) by (eapply calmer_trans; [exact M1|]; eapply calmer_trans; eauto).
    assert (SS : forall m, stack m (vpush [] res) (vpush [] 0)) by (intros m; right; exists [], [], tbl, 0; split; auto; split; auto; left; auto).
    assert (UT : under pk (last names []) = T) by (subst pk; apply under_last; [discriminate|auto]).
    destruct (hget pk m3) as [[v0 sub]|] eqn:Q.
    + cbn [hv_subkeys hv_value]. destruct sub as [c|ll]; [exfalso; eapply (PKC m3); eauto; reflexivity|]. cbn [rbind]. do 2 eexists. split; [reflexivity|].
      split; [|reflexivity]. split; cbn; auto; [|apply counted_keys; auto| |apply (vgiven_same m3 pk _ _ G3 Q)|discriminate].
      * eapply rooted_same; eauto. cbn. auto.
      * eapply listed_add; eauto. intros PN _ _. right. change (match map wk_key subkeys with [] => k | _ :: _ => last (map wk_key subkeys) [] end) with (last names []).
        rewrite UT. exact T3.
    + cbn [rbind]. do 2 eexists. split; [reflexivity|]. split; [|reflexivity]. split; cbn; auto. discriminate.
Qed.

Lemma index_end : forall p x, bracket_end (p ++ idx_str x).
Proof. intros p x. exists (p ++ lit "[" ++ dec x). unfold idx_str. rewrite <- !app_assoc. reflexivity. Qed.
Lemma walk_end : forall m k v, bracket_end k -> forall ks fk, Forall name_text ks -> walk m fk ks -> walk (hput k v m) fk ks.
Proof.
  intros m k v B. induction ks as [|n [|n1 ks] IH]; intros fk F W; auto. inversion F as [|? ? NT F']; subst. destruct W as [(v0 & l0 & E & I) W]. split.
  - exists v0, l0. split; auto. rewrite hget_hput_other; auto. intros Z. apply (not_bracket fk n NT). rewrite Z. exact B.
  - apply IH; auto.
Qed.
Lemma root_end : ~ bracket_end root_key.
Proof. intros (p & E). change root_key with (lit "$Root" ++ [36]) in E. apply app_inj_tail in E as [_ E]. discriminate. Qed.
Lemma arrd_end : forall m k v t, bracket_end k -> arrd m t -> arrd (hput k v m) t.
Proof.
  intros m k v t B []. split; auto; [|apply walk_end; auto]. destruct a_root0 as [X|(v0 & l0 & E & I)]; auto. right. exists v0, l0. split; auto.
  rewrite hget_hput_other; auto. intros Z. apply root_end. rewrite Z. exact B.
Qed.
Lemma increment_apart : forall m t x X, rooted m -> counted m -> listed X m -> vgiven m -> arrd m t ->
  exists m', increment_array_table_index m [TArrayOf t] [x] = Ok (m', [x + 1]) /\ rooted m' /\ counted m' /\ listed X m' /\ vgiven m' /\ arrd m' t.
Proof.
  intros m t x X R C L V A. unfold increment_array_table_index. destruct (gkp_ok [TArrayOf t] [x]) as [pk ->]; [cbn; lia|]. cbn [rbind].
  change (vlast [x]) with (Some x). cbv iota. eexists. split; [reflexivity|].
  destruct (hget pk m) as [[v sub]|] eqn:E; auto. cbn [hv_subkeys hv_value]. destruct sub as [c|l]; auto.
  split; [eapply rooted_same; eauto; cbn; auto|]. split; [apply (counted_more _ _ m pk _ c C E eq_refl)|]. split; [apply listed_count; auto|].
  split; [apply (vgiven_same m pk _ _ V E)|]. eapply arrd_grow; [|exact A]. apply grow_put. intros; congruence.
Qed.

Lemma arr_apart : forall w1 w2 k subkeys s, K s -> length s.(p_keychain) = S (length subkeys) ->
  Forall name_text (k :: map wk_key subkeys) -> header D true (k :: map wk_key subkeys) ->
  exists s' t, array_table_act w1 w2 k subkeys s = Ok (s', t) /\ H [] s'.
Proof using APART.
  intros w1 w2 k subkeys s H0 LC FN HD. unfold array_table_act.
  unfold keychain_drop. rewrite LC, Nat.ltb_irrefl, Nat.sub_diag. cbn [rbind firstn]. destruct H0 as [SK R C L V E O].
  cbn [set_keychain p_tables p_tindex p_map p_ovf set_array_error].
  set (tbl := table_new _ _ _). set (res := TArrayOf tbl).
  assert (TN : map wk_key tbl = k :: map wk_key subkeys) by reflexivity.
  assert (A : exists ts ti, (if is_top_std_table (p_tables s)
    then (vpop (p_tables s), vpop (p_tindex s)) else (p_tables s, p_tindex s)) = (ts, ti) /\ astack (p_map s) ts ti).
  { destruct (is_top_std_table (p_tables s)) eqn:TS; do 2 eexists; (split; [reflexivity|]).
    - eapply stack_pop; eauto.
    - eapply stack_top; eauto. }
  destruct A as (ts & ti & -> & A). rewrite O. set (names := k :: map wk_key subkeys) in *.
  assert (IMP : exists m', add_implicit_tables o (p_map s) [] [] res = Ok m' /\ rooted m' /\ counted m' /\ vgiven m' /\ listed (eq (dotted_name names)) m' /\ arrd m' tbl).
  { destruct (implicit_apart (p_map s) res) as (m' & EI & R' & C' & V' & _ & L' & W'); auto; try discriminate.
    { cbn [tt_table res]. rewrite TN. intros a UA. split; [|eapply names_clean; [exact HD|exact FN|exact UA]]. destruct UA as (NA & r & NR & EA).
      destruct (dotted_end a NA) as (p & -> & DP).
      assert (I1 : In (last a []) a) by (destruct (exists_last NA) as (u & z & Q); rewrite Q, last_last; apply in_or_app; right; left; auto).
      assert (I2 : In (last a []) (removelast names)) by (rewrite EA, removelast_app by auto; apply in_or_app; auto).
      apply not_valued; auto.
      - rewrite Forall_forall in FN. apply FN. rewrite EA. apply in_or_app. auto.
      - eapply (apart_given _ _ APART); [exact HD|exact I2]. }
    exists m'. split; auto. split; auto. split; auto. split; auto. split; [exact L'|].
    destruct W' as [W1 W2]; [intros n I0; eapply (apart_given _ _ APART); [exact HD|exact I0]|].
    split; auto; [discriminate|]. intros OT. apply (apart_last _ _ APART); auto. }
  match goal with |- context [rbind ?x _] => assert (B : exists m2 t2 x2, x = Ok (m2, [TArrayOf t2], [x2]) /\ arrd m2 t2 /\ rooted m2 /\ counted m2 /\ vgiven m2 /\
    listed (eq (dotted_name (map wk_key t2))) m2) end.
  { destruct A as [[-> ->]|(t & x & -> & -> & A)].
    - change (vlast (@nil table_type)) with (@None table_type). cbv iota. destruct IMP as (m' & -> & R' & C' & V' & L' & A'). cbn [rbind].
      exists m', tbl, 0. split; [reflexivity|]. repeat (split; auto).
    - change (vlast [TArrayOf t]) with (Some (TArrayOf t)). cbv iota. destruct (str_eqb (format_tt_keys res) (format_tt_keys (TArrayOf t))) eqn:Q.
      + destruct (increment_apart (p_map s) t x nowhere R C L V A) as (m' & -> & R' & C' & L' & V' & A'). cbn [rbind].
        exists m', t, (x + 1). split; [reflexivity|]. repeat (split; auto). eapply listed_more; [exact L'|intros y []].
      + destruct (is_subtable_of res (TArrayOf t)) eqn:SB.
        { exfalso. unfold is_subtable_of in SB. apply starts_with_app in SB as (r & SB). rewrite !format_dotted in SB. cbn [tt_table res] in SB. rewrite TN in SB.
          assert (RN : r = []) by (eapply (apart_texts _ _ APART); [apply (a_head _ _ A)|exact HD|exact SB]).
          subst r. rewrite app_nil_r in SB. unfold format_tt_keys in Q. rewrite !format_dotted in Q. cbn [tt_table res] in Q. rewrite TN, SB, str_eqb_refl in Q. discriminate. }
        assert (PU : pop_until_key (format_tt_keys res) (rev [TArrayOf t]) (rev [x]) = ([], [])) by (cbn [rev app pop_until_key]; rewrite Q; reflexivity).
        rewrite PU. cbn [rev]. destruct IMP as (m' & -> & R' & C' & V' & L' & A'). cbn [rbind]. unfold vpush. cbn [app].
        destruct (gkp_ok [res] [0]) as [pk ->]; [cbn; lia|]. cbn [rbind]. destruct (hmem pk m').
        * destruct (increment_apart m' tbl 0 _ R' C' L' V' A') as (m2 & E2 & R2 & C2 & L2 & V2 & A2). fold res in E2. rewrite E2. cbn [rbind].
          exists m2, tbl, (0 + 1). split; [reflexivity|]. repeat (split; auto).
        * exists m', tbl, 0. split; [reflexivity|]. repeat (split; auto). }
  destruct B as (m2 & t2 & x2 & -> & A2 & R2 & C2 & V2 & L2). cbn [rbind].
  assert (AS : astack m2 [TArrayOf t2] [x2]) by (right; eauto).
  destruct (arr_key m2 _ _ R2 C2 AS) as [(vd & fk & pk & -> & KO) _]. cbn [rbind].
  destruct KO as [(X & _)|(t3 & x3 & TE & PK & FK & VF)]; [congruence|]. inversion TE; subst t3. clear TE. rewrite <- PK in L2.
  destruct vd; cbn [negb].
  - do 2 eexists. split; [reflexivity|]. split; [|reflexivity].
    assert (R3 : rooted (if hmem pk m2 then m2 else hput pk hv_one_count m2) /\ counted (if hmem pk m2 then m2 else hput pk hv_one_count m2) /\
      vgiven (if hmem pk m2 then m2 else hput pk hv_one_count m2) /\ listed nowhere (if hmem pk m2 then m2 else hput pk hv_one_count m2) /\
      arrd (if hmem pk m2 then m2 else hput pk hv_one_count m2) t2).
    { destruct (hmem pk m2) eqn:HM; unfold hmem, is_some in HM; destruct (hget pk m2) eqn:HG; try discriminate.
      - repeat (split; auto). eapply listed_more; [exact L2|]. intros y <-. right. congruence.
      - split; [apply rooted_new; auto|]. split; [|split; [apply vgiven_put; auto; intros []|split]].
        + apply counted_put; auto. intros c X. inversion X; subst. split; [|lia]. right. right. exists (map wk_key t2). split; auto. apply (a_head _ _ A2).
        + eapply listed_more; [apply listed_count; exact L2|]. intros y <-. right. rewrite hget_hput_same. discriminate.
        + eapply arrd_grow; [|exact A2]. apply grow_put. congruence. }
    destruct R3 as (R3 & C3 & V3 & L3 & A3). assert (BE : bracket_end fk) by (rewrite FK; apply index_end).
    split; cbn; auto; try discriminate.
    + left. right. exists t2, x2. split; auto. split; auto. apply arrd_end; auto.
    + apply rooted_put; eauto.
    + apply counted_keys; auto.
    + apply listed_empty; auto.
    + apply vgiven_put; auto. intros [].
  - do 2 eexists. split; [reflexivity|]. split; [|reflexivity]. split; cbn; auto; [left; auto| |discriminate].
    eapply listed_more; [exact L2|]. intros y <-. right. auto.
Qed.

Lemma tri_names : forall l, map snd (map tri l) = map wk_key l.
Proof. intros l. rewrite map_map. apply map_ext. intros a. reflexivity. Qed.
Lemma head_names : forall b h h' k l, opens_with b h h' k (map tri l) -> Forall name_text (k :: map wk_key l).
Proof.
  intros b h h' k l (v & v1 & v2 & y & E & B & B1 & B2 & NT & T). constructor; auto.
  rewrite Forall_map in T. rewrite Forall_map. eapply Forall_impl; [|exact T]. intros a (_ & _ & Z). exact Z.
Qed.
Lemma std_head : forall b w1 w2 k l s, line_at D b -> opens_with b (lit "[") (lit "]") k (map tri l) -> K s ->
  length s.(p_keychain) = S (length l) -> exists s' t, std_table_act w1 w2 k l s = Ok (s', t) /\ H [] s'.
Proof using APART.
  intros b w1 w2 k l s LA OW K1 L1. apply std_apart; auto; [eapply head_names; eauto|].
  exists b, (lit "["), (lit "]"), k, (map tri l). split; auto. split; [constructor|]. split; auto. rewrite tri_names. reflexivity.
Qed.
Lemma arr_head : forall b w1 w2 k l s, line_at D b -> opens_with b (lit "[[") (lit "]]") k (map tri l) -> K s ->
  length s.(p_keychain) = S (length l) -> exists s' t, array_table_act w1 w2 k l s = Ok (s', t) /\ H [] s'.
Proof using APART.
  intros b w1 w2 k l s LA OW K1 L1. apply arr_apart; auto; [eapply head_names; eauto|].
  exists b, (lit "[["), (lit "]]"), k, (map tri l). split; auto. split; [constructor|]. split; auto. rewrite tri_names. reflexivity.
Qed.
Lemma toml_apart : forall s, H [] s -> wok (toml_p s D) K (fun _ s' _ => K s').
Proof using APART. exact (toml_calm D K apart_kept std_head arr_head). Qed.
End Doc.
End Apart.

Lemma apart_init : forall o i, H (K o i) [] (new_parser o).
Proof.
  intros o i. split; [|reflexivity]. split; cbn; auto; try discriminate.
  - left. left. auto.
  - exists None, []. reflexivity.
  - intros k v c E. cbn in E. match type of E with (if ?b then _ else _) = _ => destruct b; inversion E end.
  - intros k v l n E _ I. cbn in E. match type of E with (if ?b then _ else _) = _ => destruct b; inversion E; subst; destruct I end.
  - intros k v sub E X. cbn in E. match type of E with (if ?b then _ else _) = _ => destruct b; inversion E; subst; destruct X end.
Qed.
Lemma parse_apart : forall o i, apart_headers o i -> exists s r, parse (new_parser o) i = Ok (s, r).
Proof.
  intros o i C. pose proof (toml_apart o i C _ (apart_init o i)) as T. unfold wok in T. unfold parse.
  destruct (toml_p (new_parser o) i) as [[s1 r1]| |] eqn:E; cbn [rbind]; [|contradiction|exfalso; eapply nf_toml; eauto].
  destruct r1; do 2 eexists; reflexivity.
Qed.

(** ** A check that implies the condition on headers, for bare names (used for examples) *)
Definition line_header (b : str) : list (bool * str) :=
  match past_blanks b with
  | 91 :: 91 :: r => [(true, r)]
  | 91 :: r => [(false, r)]
  | _ => []
  end.
Definition lines_headers (i : str) : list (bool * str) := concat (map line_header (i :: SafeFacts.heads i)).
Definition apart_check (ovf : bool) (i : str) : bool :=
  let hs := lines_headers i in
  let ps := map (fun x => (fst x, header_names (snd x))) hs in
  forallb (fun x => negb (existsb (fun c => c =? 34) (upto 93 (snd x)))) hs &&
  forallb (fun x => forallb (fun n => negb (array_key_b i n) && (negb (fst x) || negb (given_b i n))) (removelast (snd x)) &&
    (negb ovf || negb (fst x) || negb (given_b i (last (snd x) []))) &&
    (negb (fst x) || forallb (fun y => negb (starts_with (dotted_name (snd x)) (dotted_name (snd y))) || str_eqb (dotted_name (snd x)) (dotted_name (snd y))) ps)) ps.
Lemma header_in : forall i arr p, forallb (fun x => negb (existsb (fun c => c =? 34) (upto 93 (snd x)))) (lines_headers i) = true ->
  header i arr p -> In (arr, p) (map (fun x => (fst x, header_names (snd x))) (lines_headers i)).
Proof.
  intros i arr p Q (b & h & h' & n & more & LA & BR & (w & w1 & w2 & y & EB & B & B1 & B2 & NT & F) & ->).
  rewrite forallb_forall in Q.
  assert (X : exists r z, In (arr, r) (lines_headers i) /\ r = w1 ++ n ++ concat (map name_after more) ++ w2 ++ 93 :: z).
  { apply heads_line in LA. assert (Y : exists r z, In (arr, r) (line_header b) /\ r = w1 ++ n ++ concat (map name_after more) ++ w2 ++ 93 :: z).
    { unfold line_header. rewrite EB, past_app by auto. destruct BR.
      - change (past_blanks (lit "[" ++ w1 ++ n ++ concat (map name_after more) ++ w2 ++ lit "]" ++ y)) with
          (91 :: w1 ++ n ++ concat (map name_after more) ++ w2 ++ 93 :: y). set (T := w1 ++ n ++ _). exists T, y. split; [|reflexivity].
        destruct T as [|c T'] eqn:ET; [left; auto|]. destruct (N.eq_dec c 91) as [->|NC].
        + exfalso. eapply bracket_blank; [symmetry; exact ET|auto|auto].
        + destruct c as [|c]; [left; auto|]. do 8 (destruct c as [c|c|]; try (left; reflexivity); try congruence).
      - change (past_blanks (lit "[[" ++ w1 ++ n ++ concat (map name_after more) ++ w2 ++ lit "]]" ++ y)) with
          (91 :: 91 :: w1 ++ n ++ concat (map name_after more) ++ w2 ++ 93 :: 93 :: y). exists (w1 ++ n ++ concat (map name_after more) ++ w2 ++ 93 :: 93 :: y), (93 :: y). split; [left; auto|reflexivity]. }
    destruct Y as (r & z & I & E). exists r, z. split; auto. unfold lines_headers. apply in_concat. exists (line_header b). split; auto. apply in_map. exact LA. }
  destruct X as (r & z & I & E). apply in_map_iff. exists (arr, r). split; auto. cbn [fst snd]. f_equal. rewrite E. apply names_ok; auto.
  rewrite <- E. specialize (Q _ I). cbn [snd] in Q. apply Bool.negb_true_iff in Q. exact Q.
Qed.
Lemma apart_ok : forall ovf i, apart_check ovf i = true -> apart_headers ovf i.
Proof.
  intros ovf i C. unfold apart_check in C. apply andb_prop in C as [Q C]. set (ps := map _ _) in C.
  assert (HI : forall arr p, header i arr p -> In (arr, p) ps) by (intros arr p HD; apply header_in; auto).
  assert (C' : forall arr p, header i arr p -> forallb (fun n => negb (array_key_b i n) && (negb arr || negb (given_b i n))) (removelast p) = true /\
    (negb ovf || negb arr || negb (given_b i (last p []))) = true /\
    (negb arr || forallb (fun y => negb (starts_with (dotted_name p) (dotted_name (snd y))) || str_eqb (dotted_name p) (dotted_name (snd y))) ps) = true).
  { intros arr p HD. rewrite forallb_forall in C. specialize (C _ (HI _ _ HD)). cbn [fst snd] in C. apply andb_prop in C as [C C3]. apply andb_prop in C as [C1 C2]. auto. }
  clear C. split.
  - intros arr p n HD I X. destruct (C' _ _ HD) as [C1 _]. rewrite forallb_forall in C1. specialize (C1 n I). apply array_key_true in X. rewrite X in C1. discriminate.
  - intros p n HD I X. destruct (C' _ _ HD) as [C1 _]. rewrite forallb_forall in C1. specialize (C1 n I). apply given_true in X. rewrite X in C1.
    apply andb_prop in C1 as [_ C1]. discriminate.
  - intros p -> HD X. destruct (C' _ _ HD) as [_ [C2 _]]. apply given_true in X. rewrite X in C2. discriminate.
  - intros arr p q x HD HQ E. destruct (C' _ _ HD) as [_ [_ C3]]. cbn [negb orb] in C3. rewrite forallb_forall in C3. specialize (C3 _ (HI _ _ HQ)). cbn [snd] in C3.
    assert (SW : starts_with (dotted_name p) (dotted_name q) = true) by (apply starts_with_app; eauto). rewrite SW in C3. cbn [negb orb] in C3.
    apply str_eqb_eq in C3. rewrite <- C3 in E. rewrite <- (app_nil_r (dotted_name p)) in E at 1. apply app_inv_head in E. auto.
Qed.
