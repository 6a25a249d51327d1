(** What a call of set_value ends in, for all values. *)
From Coq Require Import Lia ZifyBool ZifyNat ZifyN.
From Verif Require Import TotalFacts Str Regex Types Ast State Nom Keys Grammar Api Facts Spec RegexFacts NomFacts DateFacts RoundTrip Effects
  ParseFacts WalkFacts CtorFacts IdFacts WriteFacts SetFacts ApiSpec ApiFacts UpdateFacts OutcomeSpec.

(** ** convert_vector *)
Definition valid_all (l : list (bool * value)) : Prop := Forall (fun y => validate (snd y) = true) l.
Definition bad (b : bool) (l : list (bool * value)) : Prop :=
  exists l1 x l2, l = l1 ++ (b, x) :: l2 /\ validate x = false /\ valid_all l1.

Lemma bad_app_l : forall b l m, bad b l -> bad b (l ++ m).
Proof. intros b l m (l1 & x & l2 & -> & V & F). exists l1, x, (l2 ++ m). rewrite <- app_assoc. auto. Qed.
Lemma bad_app_r : forall b l m, valid_all l -> bad b m -> bad b (l ++ m).
Proof.
  intros b l m H (l1 & x & l2 & -> & V & F). exists (l ++ l1), x, l2. rewrite <- app_assoc. repeat split; auto.
  apply Forall_app; auto.
Qed.
Lemma bad_cases : forall l, valid_all l \/ bad true l \/ bad false l.
Proof.
  induction l as [|[b x] l IH]; [left; constructor|]. destruct (validate x) eqn:V.
  - destruct IH as [H|[H|H]]; [left; constructor; auto|right; left|right; right]; apply (bad_app_r _ [(b, x)] l); auto; constructor; auto; constructor.
  - right. destruct b; [left|right]; exists [], x, l; repeat split; auto; constructor.
Qed.
Lemma bad_one : forall l, valid_all l -> bad true l \/ bad false l -> False.
Proof.
  intros l F [(l1 & x & l2 & -> & V & _)|(l1 & x & l2 & -> & V & _)]; apply Forall_app in F as [_ F]; inversion F; subst; cbn [snd] in *; congruence.
Qed.
Lemma bad_unique : forall l, bad true l -> bad false l -> False.
Proof.
  induction l as [|y l IH]; intros (l1 & x & l2 & E & V & F) (m1 & z & m2 & E' & V' & F'); [destruct l1; discriminate|].
  destruct l1 as [|a l1], m1 as [|a' m1]; cbn [app] in *; inversion E; inversion E'; subst; try congruence.
  - inversion F'; subst. cbn [snd] in *. congruence.
  - inversion F; subst. cbn [snd] in *. congruence.
  - inversion F; inversion F'; subst. apply IH; [exists l1, x, l2|exists m1, z, m2]; auto.
Qed.
Lemma boxed_true : forall v, Forall (fun y => fst y = true) (boxed true v).
Proof.
  induction v using value_ind'; cbn [boxed]; try (constructor; [reflexivity|constructor]).
  - induction H; cbn [flat_map]; [constructor|apply Forall_app; auto].
  - induction H; cbn [flat_map]; [constructor|apply Forall_app; auto].
Qed.
(** the values do not depend on the flag *)
Lemma boxed_snd : forall v b, map snd (boxed b v) = leaves v.
Proof.
  induction v using value_ind'; intros b0; cbn [boxed leaves]; try reflexivity.
  - induction H; cbn [flat_map]; auto. rewrite map_app, H, IHForall. auto.
  - induction H; cbn [flat_map]; auto. rewrite map_app, H, IHForall. auto.
Qed.
Lemma valid_all_leaves : forall v b, valid_all (boxed b v) <-> all_valid v.
Proof.
  intros v b. unfold valid_all, all_valid. rewrite <- (boxed_snd v b), Forall_forall. split.
  - intros H x I. apply in_map_iff in I as (y & <- & I). auto.
  - intros H x I. apply H. apply in_map; auto.
Qed.

Definition conv_spec (v : value) : Prop := forall n,
  (all_valid v -> exists t n', convert_vector v n = Ok (Some t, n') /\ (leaf t <-> scalar_value v)) /\
  (bad false (boxed false v) -> exists n', convert_vector v n = Ok (None, n')) /\
  (bad true (boxed false v) -> convert_vector v n = Panic).

Lemma all_valid_arr : forall x l, all_valid (VArray (x :: l)) <-> all_valid x /\ all_valid (VArray l).
Proof.
  intros x l. unfold all_valid. cbn [leaves flat_map]. split.
  - intros H. split; intros y I; apply H; apply in_app_iff; auto.
  - intros [A B] y I. apply in_app_iff in I as [I|I]; auto.
Qed.
Lemma all_valid_tab : forall x l, all_valid (VInlineTable (x :: l)) <-> all_valid (snd x) /\ all_valid (VInlineTable l).
Proof.
  intros x l. unfold all_valid. cbn [leaves flat_map]. split.
  - intros H. split; intros y I; apply H; apply in_app_iff; auto.
  - intros [A B] y I. apply in_app_iff in I as [I|I]; auto.
Qed.

(** the cells of the elements are leaves where the values are scalars *)
Lemma conv_array_spec : forall l, Forall conv_spec l -> forall n,
  (all_valid (VArray l) -> exists vs n', conv_array convert_vector l n = Ok (Some vs, n') /\
     Forall2 (fun av x => leaf av.(av_val).(c_val) <-> scalar_value x) vs l) /\
  (bad false (flat_map (boxed false) l) -> exists n', conv_array convert_vector l n = Ok (None, n')) /\
  (bad true (flat_map (boxed false) l) -> conv_array convert_vector l n = Panic).
Proof.
  induction 1 as [|x l Hx F IH]; intros n.
  - split; [|split].
    + intros _. exists [], n. split; [reflexivity|constructor].
    + intros (l1 & y & l2 & E & _). destruct l1; discriminate.
    + intros (l1 & y & l2 & E & _). destruct l1; discriminate.
  - assert (ST : forall t n1, convert_vector x n = Ok (Some t, n1) -> conv_array convert_vector (x :: l) n =
      (let? (r, n2) := conv_array convert_vector l (n1 + 1) in
       Ok (match r with None => None | Some vs => Some ((match l with [] => av_last (Cell n1 t) | _ => av_default (Cell n1 t) end) :: vs) end, n2))).
    { intros t n1 E. cbn [conv_array]. rewrite E. cbn [rbind]. reflexivity. }
    destruct (Hx n) as (Ha & Hb & Hc). split; [|split].
    + intros V. apply all_valid_arr in V as [V1 V2]. destruct (Ha V1) as (t & n1 & E & L). destruct (IH (n1 + 1)) as (I1 & _).
      destruct (I1 V2) as (vs & n2 & E2 & F2). rewrite (ST _ _ E), E2. cbn [rbind]. do 2 eexists. split; [reflexivity|].
      constructor; auto. destruct l; exact L.
    + intros B. cbn [flat_map] in B. destruct (bad_cases (boxed false x)) as [V|[V|V]].
      * destruct (proj1 (Hx n) (proj1 (valid_all_leaves _ _) V)) as (t & n1 & E & _). destruct (IH (n1 + 1)) as (_ & I2 & _).
        destruct (bad_cases (flat_map (boxed false) l)) as [W|[W|W]].
        -- exfalso. apply (bad_one (boxed false x ++ flat_map (boxed false) l)); [apply Forall_app; auto|auto].
        -- exfalso. apply (bad_unique (boxed false x ++ flat_map (boxed false) l)); auto. apply bad_app_r; auto.
        -- destruct (I2 W) as (n2 & E2). rewrite (ST _ _ E), E2. cbn [rbind]. eauto.
      * exfalso. apply (bad_unique (boxed false x ++ flat_map (boxed false) l)); auto. apply bad_app_l; auto.
      * destruct (Hb V) as (n1 & E). cbn [conv_array]. rewrite E. cbn [rbind]. eauto.
    + intros B. cbn [flat_map] in B. destruct (bad_cases (boxed false x)) as [V|[V|V]].
      * destruct (proj1 (Hx n) (proj1 (valid_all_leaves _ _) V)) as (t & n1 & E & _). destruct (IH (n1 + 1)) as (_ & _ & I3).
        destruct (bad_cases (flat_map (boxed false) l)) as [W|[W|W]].
        -- exfalso. apply (bad_one (boxed false x ++ flat_map (boxed false) l)); [apply Forall_app; auto|auto].
        -- rewrite (ST _ _ E), (I3 W). reflexivity.
        -- exfalso. apply (bad_unique (boxed false x ++ flat_map (boxed false) l)); auto. apply bad_app_r; auto.
      * cbn [conv_array]. rewrite (Hc V). reflexivity.
      * exfalso. apply (bad_unique (boxed false x ++ flat_map (boxed false) l)); auto. apply bad_app_l; auto.
Qed.
Lemma conv_table_spec : forall l, Forall (fun kv => conv_spec (snd kv)) l -> forall n,
  (all_valid (VInlineTable l) -> exists ks n', conv_table convert_vector l n = Ok (ks, n') /\
     Forall2 (fun tk x => tk.(tk_kv).(kv_key) = fst x /\ (leaf tk.(tk_kv).(kv_val).(c_val) <-> scalar_value (snd x))) ks l) /\
  (~ all_valid (VInlineTable l) -> conv_table convert_vector l n = Panic).
Proof.
  induction 1 as [|x l Hx F IH]; intros n.
  - split; [intros _; exists [], n; split; [reflexivity|constructor]|]. intros N. exfalso. apply N. intros y [].
  - assert (ST : forall t n1, convert_vector (snd x) n = Ok (Some t, n1) -> conv_table convert_vector (x :: l) n =
      (let? (r, n2) := conv_table convert_vector l (n1 + 1) in
       Ok ((match l with [] => tkv_last (fst x) (Cell n1 t) | _ => tkv_default (fst x) (Cell n1 t) end) :: r, n2))).
    { intros t n1 E. cbn [conv_table]. rewrite E. cbn [rbind]. reflexivity. }
    destruct (Hx n) as (Ha & Hb & Hc). split.
    + intros V. apply all_valid_tab in V as [V1 V2]. destruct (Ha V1) as (t & n1 & E & L). destruct (IH (n1 + 1)) as (I1 & _).
      destruct (I1 V2) as (vs & n2 & E2 & F2). rewrite (ST _ _ E), E2. cbn [rbind]. do 2 eexists. split; [reflexivity|].
      constructor; auto. destruct l; cbn; auto.
    + intros N. destruct (bad_cases (boxed false (snd x))) as [V|[V|V]].
      * apply valid_all_leaves in V. destruct (Ha V) as (t & n1 & E & _). destruct (IH (n1 + 1)) as (_ & I2).
        rewrite (ST _ _ E), I2; [reflexivity|]. intros W. apply N. apply all_valid_tab. auto.
      * cbn [conv_table]. rewrite (Hc V). reflexivity.
      * destruct (Hb V) as (n1 & E). cbn [conv_table]. rewrite E. reflexivity.
Qed.
Lemma bad_table : forall l, (bad false (boxed false (VInlineTable l)) -> False) /\
  (bad true (boxed false (VInlineTable l)) -> ~ all_valid (VInlineTable l)).
Proof.
  intros l. split.
  - intros (l1 & x & l2 & E & _). change (boxed false (VInlineTable l)) with (boxed true (VInlineTable l)) in E.
    pose proof (boxed_true (VInlineTable l)) as F. rewrite E in F. apply Forall_app in F as [_ F]. inversion F; subst. discriminate.
  - intros B V. apply (bad_one (boxed false (VInlineTable l))); auto. apply valid_all_leaves. auto.
Qed.
Lemma convert_spec : forall v, conv_spec v.
Proof.
  assert (SC : forall v, scalar_value v -> (forall n, convert_vector v n = if validate v then Ok (Some (leaf_of v), n) else Ok (None, n)) -> conv_spec v).
  { intros v S E n. rewrite E. assert (B : boxed false v = [(false, v)]) by (destruct v; try destruct S; reflexivity). rewrite B. split; [|split].
    - intros V. rewrite (V v) by (rewrite scalar_leaves by auto; left; auto). do 2 eexists. split; [reflexivity|].
      split; auto. intros _. apply scalar_leaf.
    - intros (l1 & x & l2 & Q & V & _). destruct l1 as [|? [|]]; inversion Q; subst. rewrite V. eauto.
    - intros (l1 & x & l2 & Q & V & _). destruct l1 as [|? [|]]; inversion Q. }
  induction v using value_ind'; try (apply SC; [exact I|]; intros n; cbn [convert_vector]; destruct (validate _); reflexivity).
  - intros n. destruct (conv_array_spec l H n) as (A & B & C). cbn [convert_vector validate negb boxed]. split; [|split].
    + intros V. destruct (A V) as (vs & n' & E & _). rewrite E. cbn [rbind]. do 2 eexists. split; [reflexivity|]. cbn. tauto.
    + intros X. destruct (B X) as (n' & E). rewrite E. cbn [rbind]. eauto.
    + intros X. rewrite (C X). reflexivity.
  - intros n. destruct (conv_table_spec l H n) as (A & B). destruct (bad_table l) as (T1 & T2). split; [|split].
    + intros V. destruct (A V) as (vs & n' & E & _). cbn [convert_vector validate negb]. rewrite E. cbn [rbind]. do 2 eexists.
      split; [reflexivity|]. cbn. tauto.
    + intros X. exfalso. auto.
    + intros X. cbn [convert_vector validate negb]. rewrite (B (T2 X)). reflexivity.
Qed.

(** ** rebuild_vector *)
Lemma rebuild_leaf : forall t id key b m, leaf t -> rebuild_vector t id key b m = Ok (if hmem key m then m else hput key (hv_new_count (Cell id t)) m).
Proof. intros [] id key b0 m L; try destruct L; reflexivity. Qed.
Lemma rebuild_none : forall t id key b m, ~ leaf t -> hget key m = None -> rebuild_vector t id key b m = Panic.
Proof. intros [] id key b0 m L H; try (exfalso; apply L; exact I); cbn [rebuild_vector]; rewrite H; reflexivity. Qed.
Lemma fold_arr_panic : forall key l1 av l2 i m, Forall (fun a => leaf a.(av_val).(c_val)) l1 -> ~ leaf av.(av_val).(c_val) ->
  hget (key ++ idx_str (i + N.of_nat (length l1))) m = None ->
  rfold (fun i a m => rebuild_vector a.(av_val).(c_val) a.(av_val).(c_id) (key ++ idx_str i) false m) i (l1 ++ av :: l2) m = Panic.
Proof.
  induction l1 as [|a l1 IH]; intros av l2 i m F L H.
  - cbn [app rfold]. rewrite rebuild_none; auto. cbn [length] in H. replace (i + N.of_nat 0) with i in H by lia. auto.
  - inversion F; subst. cbn [app rfold]. rewrite rebuild_leaf by auto. cbn [rbind]. apply IH; auto.
    rewrite leafput_other; [replace (i + 1 + N.of_nat (length l1)) with (i + N.of_nat (length (a :: l1))) by (cbn [length]; lia); auto|].
    intros Q. apply idx_inj in Q. lia.
Qed.
Lemma fold_tab_panic : forall key l1 tk l2 i m, Forall (fun a => leaf a.(tk_kv).(kv_val).(c_val)) l1 -> ~ leaf tk.(tk_kv).(kv_val).(c_val) ->
  ~ In tk.(tk_kv).(kv_key) (map (fun a => a.(tk_kv).(kv_key)) l1) ->
  hget (key ++ lit "." ++ tk.(tk_kv).(kv_key)) m = None ->
  rfold (fun _ a m => rebuild_vector a.(tk_kv).(kv_val).(c_val) a.(tk_kv).(kv_val).(c_id) (key ++ lit "." ++ a.(tk_kv).(kv_key)) false m)
    i (l1 ++ tk :: l2) m = Panic.
Proof.
  induction l1 as [|a l1 IH]; intros tk l2 i m F L N H.
  - cbn [app rfold]. rewrite rebuild_none; auto.
  - inversion F; subst. cbn [app rfold]. rewrite rebuild_leaf by auto. cbn [rbind]. cbn [map] in N. apply IH; auto.
    + intros I. apply N. right; auto.
    + rewrite leafput_other; auto. intros Q. apply app_inv_head in Q. apply app_inv_head in Q. apply N. left; auto.
Qed.

(** ** set_value *)
Lemma set_other : forall s key c v ks, valof s.(p_map) key = Some c -> same_structure c.(c_val) v = false ->
  get_all_subkeys s.(p_map) key = Ok ks ->
  (convert_vector v s.(p_next) = Panic -> set_value s key v = Panic) /\
  (forall n, convert_vector v s.(p_next) = Ok (None, n) -> exists s', set_value s key v = Ok (s', false)) /\
  (forall nv n, convert_vector v s.(p_next) = Ok (Some nv, n) -> leaf nv -> set_value s key v = Panic) /\
  (forall nv n, convert_vector v s.(p_next) = Ok (Some nv, n) -> ~ leaf nv ->
     rebuild_vector nv n key true (upd_map c.(c_id) nv (removed ks s.(p_map))) = Panic -> set_value s key v = Panic).
Proof.
  intros s key c v ks V SS K. destruct (valof_hget _ _ _ V) as (hv & G & HV). unfold set_value. rewrite G, HV, SS, K. cbn [rbind].
  fold (removed ks (p_map s)). cbn [p_next set_map]. split; [|split; [|split]].
  - intros ->. reflexivity.
  - intros n ->. cbn [rbind]. eauto.
  - intros nv n -> L. cbn [rbind]. destruct nv; try destruct L; reflexivity.
  - intros nv n -> L R. cbn [rbind]. destruct (get_all_subkeys_ok (p_map s) key) as (l & E3 & F). rewrite K in E3. inversion E3; subst.
    assert (GR : hget key (removed l (p_map s)) = Some hv).
    { rewrite removed_keep; auto. intros I. rewrite Forall_forall in F. apply F in I. apply below_neq in I. auto. }
    destruct nv; try (exfalso; apply L; exact I); cbn [p_map set_next set_map]; rewrite GR, HV; cbn [rbind new_cell];
      unfold new_cell; cbn [write p_next set_next set_map set_root p_map c_val c_id]; rewrite R; reflexivity.
Qed.

Lemma forall2_split : forall A B (R : A -> B -> Prop) l l1 x l2, Forall2 R l (l1 ++ x :: l2) ->
  exists m1 y m2, l = m1 ++ y :: m2 /\ length m1 = length l1 /\ Forall2 R m1 l1 /\ R y x.
Proof.
  intros A B R l l1. revert l. induction l1 as [|z l1 IH]; intros l x l2 H; inversion H; subst.
  - exists [], x0, l0. repeat split; auto.
  - destruct (IH _ _ _ H4) as (m1 & y & m2 & -> & L & F & Q). exists (x0 :: m1), y, m2. cbn [length]. repeat split; auto.
Qed.
Lemma forall2_left : forall A B (R : A -> B -> Prop) (P : A -> Prop) (Q : B -> Prop) l m, Forall2 R l m -> Forall Q m ->
  (forall a b, R a b -> Q b -> P a) -> Forall P l.
Proof. intros A B R P Q l m H F G. induction H; constructor; inversion F; subst; eauto. Qed.

Lemma known_gone : forall s key c ks k, valof s.(p_map) key = Some c -> key <> [] -> k <> [] -> get_all_subkeys s.(p_map) key = Ok ks ->
  (get_children s k <> None -> child_of s key k) -> hget k (removed ks s.(p_map)) = None.
Proof.
  intros s key c ks k V NE NK K H. destruct (valof_hget _ _ _ V) as (hv & G & _). rewrite children_get in H by auto.
  rewrite hget_removed. destruct (vcontains ks k) eqn:E; auto. destruct (hget k (p_map s)) eqn:G2; auto. exfalso.
  assert (I : In k ks).
  { eapply subkeys_direct; eauto. destruct H as [(n & i & C & L & ->)|(l & n & C & I & ->)]; [discriminate| |];
      rewrite children_get, G in C by auto; injection C as C; rewrite C; cbn [direct]; apply in_map_iff.
    - exists i. split; auto. unfold nrange. apply in_map_iff. exists (N.to_nat i). split; [lia|]. apply in_seq. lia.
    - exists n. auto. }
  apply FlatFacts.vcontains_in in I. congruence.
Qed.

Lemma set_nested : forall s key c v k, valof s.(p_map) key = Some c -> key <> [] -> same_structure c.(c_val) v = false -> all_valid v ->
  first_nested key v k -> (get_children s k <> None -> child_of s key k) -> set_value s key v = Panic.
Proof.
  intros s key c v k V NE SS AV N H. destruct (get_all_subkeys_ok (p_map s) key) as (ks & K & _).
  destruct (set_other s key c v ks V SS K) as (_ & _ & _ & P).
  assert (NK : k <> []) by (destruct N as [(l1 & x & l2 & _ & _ & _ & ->)|(l1 & n & x & l2 & _ & _ & _ & _ & ->)]; destruct key; discriminate).
  pose proof (known_gone _ _ _ _ _ V NE NK K H) as GN.
  assert (KK : k <> key).
  { destruct N as [(l1 & x & l2 & _ & _ & _ & ->)|(l1 & n & x & l2 & _ & _ & _ & _ & ->)]; intros Q;
      apply (f_equal (@length N)) in Q; rewrite app_length in Q; cbn [app lit list_ascii_of_string map length] in Q; lia. }
  destruct N as [(l1 & x & l2 & -> & F & S & EK)|(l1 & n & x & l2 & -> & F & S & ND & EK)].
  - destruct (conv_array_spec (l1 ++ x :: l2) (proj2 (Forall_forall _ _) (fun z _ => convert_spec z)) (p_next s)) as (A & _).
    destruct (A AV) as (vs & n' & E & F2). destruct (forall2_split _ _ _ _ _ _ _ F2) as (m1 & y & m2 & -> & L & FM & Y).
    eapply P; [cbn [convert_vector validate negb]; rewrite E; reflexivity|cbn; tauto|].
    cbn [rebuild_vector]. destruct (hget key _) as [hv|]; auto. apply fold_arr_panic.
    + eapply forall2_left; [exact FM|exact F|]. cbv beta. intros a b R Q. apply R; auto.
    + tauto.
    + rewrite L. change (0 + N.of_nat (length l1)) with (N.of_nat (length l1)). fold (idx_str (N.of_nat (length l1))) in EK.
      rewrite <- EK, hget_hput_other by auto. rewrite hget_upd, GN. reflexivity.
  - destruct (conv_table_spec (l1 ++ (n, x) :: l2) (proj2 (Forall_forall _ _) (fun z _ => convert_spec (snd z))) (p_next s)) as (A & _).
    destruct (A AV) as (vs & n' & E & F2). destruct (forall2_split _ _ _ _ _ _ _ F2) as (m1 & y & m2 & -> & L & FM & [YK Y]).
    cbn [fst snd] in YK, Y.
    eapply P; [cbn [convert_vector validate negb]; rewrite E; reflexivity|cbn; tauto|].
    cbn [rebuild_vector]. destruct (hget key _) as [hv|]; auto. apply fold_tab_panic.
    + eapply forall2_left; [exact FM|exact F|]. cbv beta. intros a b R Q. apply R; auto.
    + tauto.
    + rewrite YK. replace (map (fun a : table_keyval => kv_key (tk_kv a)) m1) with (map fst l1); auto.
      clear - FM. induction FM as [|a b m1 l1 [A _] FM IH]; auto. cbn [map]. congruence.
    + rewrite YK, <- EK, hget_hput_other by auto. rewrite hget_upd, GN. reflexivity.
Qed.

Lemma bad_same : forall t v, same_structure t v = true -> all_valid v.
Proof.
  assert (SC : forall t v, scalar_value v -> same_structure t v = true -> all_valid v).
  { intros t v S E. apply valid_scalar; auto. destruct (validate v) eqn:V; auto. destruct t; cbn [same_structure] in E; rewrite V in E; discriminate. }
  intros t v. revert t. induction v using value_ind'; intros t0 E; try (eapply SC; [exact I|exact E]).
  - destruct t0 as [| | | |vals n1 n2| | |]; cbn [same_structure validate negb] in E; try discriminate. intros y Y. cbn [leaves] in Y. apply in_flat_map in Y as (x & X & Y).
    rewrite Forall_forall in H. revert l E H X. induction vals as [|a vals IH]; intros [|b l] E H X; try discriminate; [destruct X|].
    cbn [all2] in E. apply andb_true_iff in E as [E1 E2]. destruct X as [->|X]; [eapply H; eauto; left; auto|].
    eapply IH; eauto. intros; eapply H; eauto. right; auto.
  - destruct t0 as [| | | | | |kvs w|]; cbn [same_structure validate negb] in E; try discriminate. intros y Y. cbn [leaves] in Y. apply in_flat_map in Y as (x & X & Y).
    rewrite Forall_forall in H. revert l E H X. induction kvs as [|a vals IH]; intros [|b l] E H X; try discriminate; [destruct X|].
    cbn [all2] in E. apply andb_true_iff in E as [E1 E2]. apply andb_true_iff in E1 as [_ E1]. destruct X as [->|X]; [eapply H; eauto; left; auto|].
    eapply IH; eauto. intros; eapply H; eauto. right; auto.
Qed.
Lemma structure_iff : forall t v0 v, to_val t = Ok v0 -> (same_structure t v = true <-> same_shape v0 v /\ all_valid v).
Proof.
  intros t v0 v T. split.
  - intros E. split; [eapply same_structure_shape; eauto|eapply bad_same; eauto].
  - intros [S V]. destruct (fill_ok _ _ _ 0 T S V) as (ws & F). apply (fi_same _ _ _ _ _ F).
Qed.

Lemma outcome : forall ovf s key old v, reach ovf s -> key <> [] -> key <> root_key -> get_value s key = Ok (Some old) ->
  (same_shape old v /\ all_valid v -> exists s', set_value s key v = Ok (s', true) /\ get_value s' key = Ok (Some v)) /\
  (~ (same_shape old v /\ all_valid v) ->
     (first_bad v true -> set_value s key v = Panic) /\
     (first_bad v false -> exists s', set_value s key v = Ok (s', false)) /\
     (all_valid v -> scalar_value v -> set_value s key v = Panic) /\
     (all_valid v -> flat_value v -> exists s', set_value s key v = Ok (s', true) /\ get_value s' key = Ok (Some v)) /\
     (all_valid v -> forall k, first_nested key v k -> (get_children s k <> None -> child_of s key k) -> set_value s key v = Panic)).
Proof.
  intros ovf s key old v R NE NR G. destruct (reach_wf _ _ R) as (h & W). pose proof (reach_shape _ _ R) as Sh. split.
  { intros [SS AV]. destruct (set_same_all h s key old v W Sh G SS AV) as (s' & A & B & _). eauto. }
  intros N. pose proof G as G'. apply get_value_some in G' as (c & V & T).
  assert (SF : same_structure (c_val c) v = false).
  { destruct (same_structure (c_val c) v) eqn:E; auto. exfalso. apply N. eapply structure_iff; eauto. }
  destruct (get_all_subkeys_ok (p_map s) key) as (ks & K & _). destruct (set_other s key c v ks V SF K) as (P1 & P2 & P3 & P4).
  destruct (convert_spec v (p_next s)) as (C1 & C2 & C3).
  split; [|split; [|split; [|split]]].
  - intros B. apply P1, C3, B.
  - intros B. destruct (C2 B) as (n & E). eapply P2; eauto.
  - intros AV S. destruct (C1 AV) as (t & n & E & L). eapply P3; eauto. apply L; auto.
  - intros AV F. assert (NS : ~ same_shape old v) by tauto. destruct v as [| | | | |l|l]; try (exfalso; exact F).
    + destruct (set_flat_array h s key old l W Sh NR G) as (s' & A & B & _); eauto. intros x I. cbn [flat_value] in F. rewrite Forall_forall in F.
      split; auto. apply AV. cbn [leaves]. apply in_flat_map. exists x. split; auto. rewrite scalar_leaves by auto. left; auto.
    + destruct (set_flat_table h s key old l W Sh NR G) as (s' & A & B & _); eauto. intros x I. cbn [flat_value] in F. rewrite Forall_forall in F.
      split; auto. apply AV. cbn [leaves]. apply in_flat_map. exists x. split; auto. rewrite scalar_leaves by auto. left; auto.
  - intros AV k F H. eapply set_nested; eauto.
Qed.

(** the cases are all there are: the value is valid or has a first scalar that is
    not, and then it is a scalar, flat, or has a nested value below a new name *)
Lemma bad_or_valid : forall v, all_valid v \/ first_bad v true \/ first_bad v false.
Proof.
  intros v. destruct (bad_cases (boxed false v)) as [V|[V|V]]; auto. left. eapply valid_all_leaves; eauto.
Qed.
Lemma scalar_dec : forall v, scalar_value v \/ ~ scalar_value v.
Proof. intros []; cbn; tauto. Qed.
Lemma first_of : forall A (P : A -> Prop) l, (forall x, P x \/ ~ P x) -> Forall P l \/ exists l1 x l2, l = l1 ++ x :: l2 /\ Forall P l1 /\ ~ P x.
Proof.
  intros A P l D. induction l as [|x l IH]; [left; constructor|]. destruct (D x) as [H|H]; [|right; exists [], x, l; auto].
  destruct IH as [F|(l1 & y & l2 & -> & F & N)]; [left; auto|]. right. exists (x :: l1), y, l2. auto.
Qed.
Lemma shape_cases : forall key v, (forall l, v = VInlineTable l -> NoDup (map fst l)) ->
  scalar_value v \/ flat_value v \/ exists k, first_nested key v k.
Proof.
  intros key v ND. destruct v as [| | | | |l|l]; try (left; exact I); right.
  - destruct (first_of _ scalar_value l scalar_dec) as [F|(l1 & x & l2 & -> & F & N)]; [left; exact F|]. right. eexists. left. eauto 8.
  - destruct (first_of _ (fun kv => scalar_value (snd kv)) l (fun kv => scalar_dec (snd kv))) as [F|(l1 & [n x] & l2 & -> & F & N)]; [left; exact F|].
    right. eexists. right. exists l1, n, x, l2. repeat split; auto. specialize (ND _ eq_refl). rewrite map_app in ND. cbn [map fst] in ND.
    apply NoDup_remove_2 in ND. intros I. apply ND. apply in_app_iff. auto.
Qed.

(** the same as three equivalences *)
Lemma outcome_iff : forall ovf s key old v, reach ovf s -> key <> [] -> key <> root_key -> get_value s key = Ok (Some old) -> new_names s key v ->
  ((exists s', set_value s key v = Ok (s', true)) <-> all_valid v /\ (same_shape old v \/ flat_value v)) /\
  ((exists s', set_value s key v = Ok (s', false)) <-> first_bad v false) /\
  (set_value s key v = Panic <-> first_bad v true \/ (all_valid v /\ ~ same_shape old v /\ ~ flat_value v)).
Proof.
  intros ovf s key old v R NE NR G [ND NN]. destruct (outcome ovf s key old v R NE NR G) as [A B].
  assert (FV : forall b, first_bad v b -> ~ all_valid v).
  { intros b F V. apply (bad_one (boxed false v)); [apply valid_all_leaves; auto|]. destruct b; auto. }
  assert (U : first_bad v true -> first_bad v false -> False) by (apply bad_unique).
  assert (D : (all_valid v /\ same_shape old v) \/ ~ (same_shape old v /\ all_valid v)).
  { apply get_value_some in G as (c & V & T). destruct (same_structure (c_val c) v) eqn:E.
    - left. apply (structure_iff _ _ _ T) in E. tauto.
    - right. intros Q. apply (structure_iff _ _ _ T) in Q. congruence. }
  destruct D as [[V S]|N].
  - destruct (A (conj S V)) as (s' & E & _). rewrite E. split; [|split]; split.
    + auto.
    + eauto.
    + intros (s2 & Q). inversion Q.
    + intros F. exfalso. apply (FV _ F). auto.
    + discriminate.
    + intros [F|(_ & NS & _)]; [exfalso; apply (FV _ F); auto|exfalso; auto].
  - destruct (B N) as (B1 & B2 & B3 & B4 & B5). destruct (bad_or_valid v) as [V|[F|F]].
    + assert (NS : ~ same_shape old v) by tauto. destruct (shape_cases key v ND) as [S|[S|(k & S)]].
      * rewrite (B3 V S). assert (~ flat_value v) by (destruct v; try destruct S; cbn; tauto). split; [|split]; split.
        -- intros (s2 & Q). discriminate.
        -- intros (_ & [Q|Q]); exfalso; auto.
        -- intros (s2 & Q). discriminate.
        -- intros Q. exfalso. apply (FV _ Q); auto.
        -- auto.
        -- auto.
      * destruct (B4 V S) as (s' & E & _). rewrite E. split; [|split]; split.
        -- auto.
        -- eauto.
        -- intros (s2 & Q). inversion Q.
        -- intros Q. exfalso. apply (FV _ Q); auto.
        -- discriminate.
        -- intros [Q|(_ & _ & Q)]; [exfalso; apply (FV _ Q); auto|exfalso; auto].
      * rewrite (B5 V k S (NN k S)). assert (NF : ~ flat_value v).
        { destruct S as [(l1 & x & l2 & -> & _ & X & _)|(l1 & n & x & l2 & -> & _ & X & _)]; cbn [flat_value]; intros Q; apply Forall_app in Q as [_ Q];
            inversion Q; subst; auto. }
        split; [|split]; split.
        -- intros (s2 & Q). discriminate.
        -- intros (_ & [Q|Q]); exfalso; auto.
        -- intros (s2 & Q). discriminate.
        -- intros Q. exfalso. apply (FV _ Q); auto.
        -- auto.
        -- auto.
    + rewrite (B1 F). split; [|split]; split; auto.
      * intros (s2 & Q). discriminate.
      * intros (V & _). exfalso. apply (FV _ F); auto.
      * intros (s2 & Q). discriminate.
      * intros Q. exfalso. auto.
    + destruct (B2 F) as (s' & E). rewrite E. split; [|split]; split; eauto.
      * intros (s2 & Q). inversion Q.
      * intros (V & _). exfalso. apply (FV _ F); auto.
      * discriminate.
      * intros [Q|(V & _)]; exfalso; [auto|apply (FV _ F); auto].
Qed.
Lemma accepted_found : forall ovf s key old v s', reach ovf s -> key <> [] -> key <> root_key -> get_value s key = Ok (Some old) -> new_names s key v ->
  set_value s key v = Ok (s', true) -> get_value s' key = Ok (Some v).
Proof.
  intros ovf s key old v s' R NE NR G NN E. destruct (outcome_iff ovf s key old v R NE NR G NN) as [[A _] _].
  destruct (A (ex_intro _ _ E)) as [V S]. destruct (outcome ovf s key old v R NE NR G) as [B C].
  assert (D : (same_shape old v /\ all_valid v) \/ ~ (same_shape old v /\ all_valid v)).
  { apply get_value_some in G as (c & VC & T). rewrite <- (structure_iff _ _ _ T). destruct (same_structure (c_val c) v); auto. }
  destruct D as [D|D].
  - destruct (B D) as (s2 & Q & X). rewrite E in Q. inversion Q; subst; auto.
  - destruct S as [S|S]; [exfalso; auto|]. destruct (C D) as (_ & _ & _ & C4 & _). destruct (C4 V S) as (s2 & Q & X).
    rewrite E in Q. inversion Q; subst; auto.
Qed.
