(** Two runs on texts with the same names and structure keep in step. *)
From Coq Require Import Lia ZifyBool ZifyNat ZifyN.
From Verif Require Import Str Regex Types Ast State Nom Keys Grammar Api Facts Spec ApiSpec.
From Verif Require Import RegexFacts NomFacts TypesFacts DateFacts NumFacts StringFacts ScalarFacts CtorFacts.
From Verif Require Import LineFacts FlatFacts RoundTrip ParseFacts WalkFacts IdFacts ApiFacts DocSpec DotSpec TreeSpec MixSpec PathFacts NestFacts SectFacts DotFacts BlindFacts WholeSpec WholeFacts TwinSpec TwinFacts KinSpec.

Notation kind := DocSpec.kind.
Lemma kindred_refl : forall v, kindred v v.
Proof.
  assert (ST : forall l, same_turns l l) by (induction l as [|a l IH]; cbn [same_turns]; auto; split; auto; destruct l; tauto).
  induction v as [| | | | |vs IH|kvs IH] using value_ind'; try (apply Ki_scalar; [exact I|exact I|reflexivity]).
  - apply Ki_array; auto. induction IH; constructor; auto.
  - apply Ki_table. induction IH; constructor; auto.
Qed.

(** ** States *)
Definition ckin (c d : cell) : Prop := c.(c_id) = d.(c_id) /\
  (c = d \/ exists v v', to_val c.(c_val) = Ok v /\ to_val d.(c_val) = Ok v' /\ kindred v v').
Definition hkin (h h' : hash_value) : Prop := orel ckin h.(hv_value) h'.(hv_value) /\ h.(hv_subkeys) = h'.(hv_subkeys).
Definition mkin (m m' : vmap) : Prop := forall k, orel hkin (hget k m) (hget k m').
Notation types := (list (array_type * array_type)).
(** [x]: the types of the elements read last, in the two runs *)
Record kin (x : types) (s t : pst) : Prop := {
  kn_map : mkin s.(p_map) t.(p_map);
  kn_errors : same_errors s.(p_errors) t.(p_errors);
  kn_tables : Forall2 ttsame s.(p_tables) t.(p_tables);
  kn_tindex : s.(p_tindex) = t.(p_tindex);
  kn_keychain : s.(p_keychain) = t.(p_keychain);
  kn_last : orel ttsame s.(p_last_table) t.(p_last_table);
  kn_atypes : s.(p_atypes) = map fst x;
  kn_atypes' : t.(p_atypes) = map snd x;
  kn_aerr : s.(p_array_error) = t.(p_array_error);
  kn_next : s.(p_next) = t.(p_next);
  kn_ovf : s.(p_ovf) = t.(p_ovf) }.

Lemma ckin_refl : forall c, ckin c c.
Proof. split; auto. Qed.
Lemma hkin_refl : forall h, hkin h h.
Proof. intros [[c|] sub]; split; cbn; auto. apply ckin_refl. Qed.
Lemma mkin_refl : forall m, mkin m m.
Proof. intros m k. destruct (hget k m); cbn; auto. apply hkin_refl. Qed.
Lemma kin_refl : forall s, kin (map (fun a => (a, a)) s.(p_atypes)) s s.
Proof.
  intros s. constructor; auto; try (rewrite map_map; cbn [fst snd]; rewrite map_id; reflexivity).
  - apply mkin_refl.
  - reflexivity.
  - induction (p_tables s); constructor; auto. apply ttsame_refl.
  - destruct (p_last_table s); cbn; auto. apply ttsame_refl.
Qed.
Lemma mkin_put : forall m m' k h h', mkin m m' -> hkin h h' -> mkin (hput k h m) (hput k h' m').
Proof.
  intros m m' k h h' M H x. destruct (str_eqb x k) eqn:E.
  - apply str_eqb_eq in E. subst x. rewrite !hget_hput_same. exact H.
  - assert (x <> k) by (intros ->; rewrite str_eqb_refl in E; discriminate). rewrite !hget_hput_other by auto. apply M.
Qed.

(** ** The map *)
Lemma to_val_head : forall c v, to_val c.(c_val) = Ok v -> match c.(c_val) with
  | TTable => False | TArray _ _ _ => exists l, v = VArray l | TInlineTable _ _ => exists l, v = VInlineTable l | _ => scalar_value v end.
Proof.
  intros [i t] v H. cbn [c_val] in *. destruct t; cbn [to_val] in H; try (inversion H; subst; exact I); try discriminate H;
    apply rbind_ok in H as (l & _ & H); inversion H; eauto.
Qed.
Lemma ckin_cases : forall c d, ckin c d -> match c.(c_val), d.(c_val) with
  | TTable, TTable | TArray _ _ _, TArray _ _ _ | TInlineTable _ _, TInlineTable _ _ => True
  | (TTable | TArray _ _ _ | TInlineTable _ _), _ | _, (TTable | TArray _ _ _ | TInlineTable _ _) => False
  | _, _ => True end.
Proof.
  intros c d [_ [<-|(v & v' & A & B & K)]]; [destruct (c_val c); exact I|]. apply to_val_head in A, B.
  destruct K as [v v' S S' _|l l' _ _|l l' _]; destruct (c_val c), (c_val d); auto; try (destruct A as (? & A); subst); try (destruct B as (? & B); subst);
    cbn [scalar_value] in *; try contradiction; try discriminate.
Qed.
Lemma is_table_kin : forall A (x y : A) c d, ckin c d ->
  match c.(c_val) with TTable => x | _ => y end = match d.(c_val) with TTable => x | _ => y end.
Proof. intros A x y c d H. apply ckin_cases in H. destruct (c_val c), (c_val d); try contradiction; reflexivity. Qed.
Lemma khv_kin : forall m m' k, mkin m m' -> key_has_value m k = key_has_value m' k.
Proof.
  intros m m' k M. unfold key_has_value. specialize (M k). destruct (hget k m) as [[v sub]|], (hget k m') as [[v' sub']|]; cbn [orel] in M; try contradiction; auto.
  destruct M as [V _]. cbn [hv_value] in *. destruct v as [c|], v' as [d|]; cbn [orel] in V; try contradiction; auto. apply is_table_kin; auto.
Qed.
Lemma hmem_kin : forall m m' k, mkin m m' -> hmem k m = hmem k m'.
Proof. intros m m' k M. unfold hmem. specialize (M k). destruct (hget k m), (hget k m'); cbn in *; auto; contradiction. Qed.
Ltac hcase M k m m' := let X := fresh "X" in pose proof (M k) as X; destruct (hget k m) as [[? ?]|], (hget k m') as [[? ?]|]; cbn [orel] in X; try contradiction;
  [destruct X as [?V ?S]; cbn [hv_value hv_subkeys] in *; subst|].
Lemma gatk_arr_kin : forall m m', mkin m m' -> forall ks fk, gatk_arr m ks fk = gatk_arr m' ks fk.
Proof.
  intros m m' M. induction ks as [|k ks IH]; intros fk; [reflexivity|]. destruct ks as [|k1 rest]; [reflexivity|].
  change (gatk_arr m (k :: k1 :: rest) fk) with (match hget (fk ++ k) m with
      | None => Panic
      | Some hv => rbind (match hv.(hv_subkeys) with
            | Count c => if str_eqb (fk ++ k) root_key then Ok [] else Ok ((fk ++ k) ++ idx_str c ++ lit ".")
            | Keys l => if vcontains l k1 || match rest with [] => true | _ => false end
                then (if str_eqb (fk ++ k) root_key then Ok [] else Ok ((fk ++ k) ++ lit ".")) else Panic
            end) (fun fk => gatk_arr m (k1 :: rest) fk) end).
  change (gatk_arr m' (k :: k1 :: rest) fk) with (match hget (fk ++ k) m' with
      | None => Panic
      | Some hv => rbind (match hv.(hv_subkeys) with
            | Count c => if str_eqb (fk ++ k) root_key then Ok [] else Ok ((fk ++ k) ++ idx_str c ++ lit ".")
            | Keys l => if vcontains l k1 || match rest with [] => true | _ => false end
                then (if str_eqb (fk ++ k) root_key then Ok [] else Ok ((fk ++ k) ++ lit ".")) else Panic
            end) (fun fk => gatk_arr m' (k1 :: rest) fk) end).
  hcase M (fk ++ k) m m'; [|reflexivity]. cbn [hv_subkeys]. match goal with |- rbind ?x _ = _ => destruct x; cbn [rbind]; auto end.
Qed.
Lemma gatk_std_kin : forall m m', mkin m m' -> forall ks v fk pk, gatk_std m ks v fk pk = gatk_std m' ks v fk pk.
Proof.
  intros m m' M. induction ks as [|k ks IH]; intros v fk pk; [reflexivity|]. destruct ks as [|k1 rest]; [reflexivity|].
  cbn [gatk_std] in *. destruct (str_eqb k root_key); [apply IH|]. rewrite (khv_kin m m' _ M). apply IH.
Qed.
Lemma gatk_loop_kin : forall b m m' ts ts' ti, mkin m m' -> Forall2 ttsame ts ts' -> forall n i pe v fk pk,
  gatk_loop b m ts ti n i pe v fk pk = gatk_loop b m' ts' ti n i pe v fk pk.
Proof.
  intros b m m' ts ts' ti M T. induction n as [|n IH]; intros i pe v fk pk; [reflexivity|]. cbn [gatk_loop].
  pose proof (f2_index _ _ _ _ T i) as N. destruct (vindex ts i) as [t| |], (vindex ts' i) as [t'| |]; cbn [rsim rbind] in *; try contradiction; auto.
  destruct t as [t|t], t' as [u|u]; cbn [ttsame] in N; try contradiction; rewrite (last_keys_same t u N).
  - rewrite (gatk_std_kin m m' M). destruct (gatk_std m' _ v fk pk) as [[v1 fk1] pk1]. rewrite (khv_kin m m' _ M). apply IH.
  - rewrite (gatk_arr_kin m m' M). destruct (gatk_arr m' _ fk) as [fk1| |]; cbn [rbind]; auto.
    hcase M (fk1 ++ last (get_last_keys u) []) m m'.
    + assert (E : match hv_value with Some _ => false | None => match hv_subkeys0 with Keys _ => false | Count _ => v end end =
                  match hv_value0 with Some _ => false | None => match hv_subkeys0 with Keys _ => false | Count _ => v end end).
      { destruct hv_value, hv_value0; cbn [orel] in V; try contradiction; auto. }
      destruct hv_subkeys0; (match goal with |- rbind ?x _ = _ => destruct x; cbn [rbind]; auto end); rewrite E; destruct (Nat.ltb _ _); apply IH.
    + destruct (vindex ti i); cbn [rbind]; auto. destruct (Nat.ltb _ _); apply IH.
Qed.
Lemma gatk_kin : forall b m m' ts ts' ti, mkin m m' -> Forall2 ttsame ts ts' -> get_array_table_key b m ts ti = get_array_table_key b m' ts' ti.
Proof. intros. unfold get_array_table_key. apply gatk_loop_kin; auto. Qed.
Lemma full_kin : forall b m m' ts ts' ti kc, mkin m m' -> Forall2 ttsame ts ts' -> get_full_key b m ts ti kc = get_full_key b m' ts' ti kc.
Proof. intros. unfold get_full_key. erewrite gatk_kin by eauto. reflexivity. Qed.
Lemma khcv_kin : forall m m' k, mkin m m' -> key_has_children_with_values m k = key_has_children_with_values m' k.
Proof.
  intros m m' k M. unfold key_has_children_with_values. destruct (str_eqb k root_key); auto. hcase M k m m'; [|reflexivity].
  destruct hv_subkeys0 as [c|l]; auto. f_equal. clear -M. induction l as [|x l IH]; [reflexivity|]. cbn [existsb]. rewrite (khv_kin m m' _ M), IH. reflexivity.
Qed.
Lemma kin_put : forall m m' k v v' sub, mkin m m' -> orel ckin v v' -> mkin (hput k (HashValue v sub) m) (hput k (HashValue v' sub) m').
Proof. intros. apply mkin_put; auto. split; auto. Qed.
Lemma update_kin : forall m m' pk kc, mkin m m' -> rsim mkin (update_parent m pk kc) (update_parent m' pk kc).
Proof.
  intros m m' pk kc M. unfold update_parent. hcase M pk m m'.
  - destruct hv_subkeys0; [cbn; apply kin_put; auto|]. destruct (vlast kc) as [[s|i]|]; cbn; auto. apply kin_put; auto.
  - destruct (vlast kc) as [[s|i]|]; cbn; auto; apply mkin_put; auto; apply hkin_refl.
Qed.
Lemma keys_kin : forall x s t, kin x s t -> keyval_keys s = keyval_keys t.
Proof.
  intros x s t H. destruct H as [M E T I K L A A' AE NX O]. unfold keyval_keys. rewrite I, K, O.
  destruct (p_last_table s) as [[a|a]|], (p_last_table t) as [[b|b]|]; cbn [orel ttsame] in L; try contradiction; auto.
  - erewrite full_kin; [reflexivity|auto|]. apply f2_push; auto.
  - erewrite full_kin; [reflexivity|auto|auto].
Qed.

(** ** Fields *)
Lemma kn_set_map : forall x s t m m', kin x s t -> mkin m m' -> kin x (set_map m s) (set_map m' t).
Proof. intros x s t m m' [] M. constructor; cbn; auto. Qed.
Lemma kn_error : forall x s t e e', kin x s t -> error_names e = error_names e' -> kin x (push_error e s) (push_error e' t).
Proof. intros x s t e e' [] E. constructor; cbn; auto. unfold same_errors, vpush in *. rewrite !map_app. cbn [map]. congruence. Qed.
Lemma kn_set_errors : forall x s t e e', kin x s t -> same_errors e e' -> kin x (set_errors e s) (set_errors e' t).
Proof. intros x s t e e' [] E. constructor; cbn; auto. Qed.
Lemma kn_set_tables : forall x s t a b i, kin x s t -> Forall2 ttsame a b -> kin x (set_tables a i s) (set_tables b i t).
Proof. intros x s t a b i [] E. constructor; cbn; auto. Qed.
Lemma kn_set_chain : forall x s t k, kin x s t -> kin x (set_keychain k s) (set_keychain k t).
Proof. intros x s t k []. constructor; cbn; auto. Qed.
Lemma kn_set_last : forall x s t a b, kin x s t -> orel ttsame a b -> kin x (set_last_table a s) (set_last_table b t).
Proof. intros x s t a b [] E. constructor; cbn; auto. Qed.
Lemma kn_set_atypes : forall x y s t a b, kin x s t -> a = map fst y -> b = map snd y -> kin y (set_atypes a s) (set_atypes b t).
Proof. intros x y s t a b []. constructor; cbn; auto. Qed.
Lemma kn_set_aerr : forall x s t b, kin x s t -> kin x (set_array_error b s) (set_array_error b t).
Proof. intros x s t b []. constructor; cbn; auto. Qed.
Lemma kn_set_next : forall x s t a, kin x s t -> kin x (set_next a s) (set_next a t).
Proof. intros x s t a []. constructor; cbn; auto. Qed.
Lemma kn_set_line : forall x s t a b, kin x s t -> kin x (set_line a s) (set_line b t).
Proof. intros x s t a b []. constructor; cbn; auto. Qed.
Lemma kn_push_key : forall x s t k, kin x s t -> kin x (push_key k s) (push_key k t).
Proof. intros x s t k H. unfold push_key. rewrite (kn_keychain _ _ _ H). apply kn_set_chain; auto. Qed.
Lemma kn_pop_key : forall x s t, kin x s t -> kin x (pop_key s) (pop_key t).
Proof. intros x s t H. unfold pop_key. rewrite (kn_keychain _ _ _ H). apply kn_set_chain; auto. Qed.

(** ** Actions *)
Lemma to_val_kin : forall c d, ckin c d -> (exists v v', to_val c.(c_val) = Ok v /\ to_val d.(c_val) = Ok v' /\ kindred v v') \/ to_val c.(c_val) = to_val d.(c_val).
Proof. intros c d [_ [<-|X]]; auto. Qed.
Lemma insert_kin : forall x s t c d, kin x s t -> ckin c d -> rsim (kin x) (insert_keyval_into_map s c) (insert_keyval_into_map t d).
Proof.
  intros x s t c d H C. unfold insert_keyval_into_map. rewrite (keys_kin _ _ _ H). destruct (keyval_keys t) as [[fk pk]| |]; cbn [rbind rsim]; auto.
  pose proof (kn_map _ _ _ H) as M. hcase M fk (p_map s) (p_map t).
  - destruct hv_value as [c0|], hv_value0 as [d0|]; cbn [orel] in V; try contradiction.
    + destruct (to_val_kin _ _ C) as [(v & v' & -> & -> & _)|E]; [cbn [rbind rsim]; apply kn_error; auto|]. destruct (to_val (c_val c)), (to_val (c_val d)); cbn [rbind rsim] in *; try discriminate E; auto. apply kn_error; auto.
    + eapply rs_bind; [rewrite (kn_keychain _ _ _ H); apply update_kin, kin_put; auto|]. intros m m' MM. cbn. apply kn_set_map; auto.
  - eapply rs_bind; [rewrite (kn_keychain _ _ _ H); apply update_kin, mkin_put; auto|intros m m' MM; cbn; apply kn_set_map; auto].
    pose proof (ckin_cases _ _ C) as K. destruct (c_val c), (c_val d); try contradiction; (split; cbn [hv_value hv_subkeys hv_new_keys hv_new_count orel]; auto).
Qed.
Lemma errors_last : forall l l', same_errors l l' -> orel (fun a b => error_names a = error_names b) (vlast l) (vlast l').
Proof.
  intros l l' E. apply f2_last. unfold same_errors in E. revert l' E. induction l as [|a l IH]; intros [|b l'] E; try discriminate E; constructor; inversion E; auto.
Qed.
Lemma errors_pop : forall l l', same_errors l l' -> same_errors (vpop l) (vpop l').
Proof.
  intros l l' E. unfold vpop, same_errors in *. revert l' E. induction l as [|a l IH]; intros [|b l'] E; try discriminate E; [reflexivity|]. cbn [map] in E. injection E as E1 E2. specialize (IH l' E2).
  cbn [removelast]. destruct l, l'; try discriminate E2; [reflexivity|]. cbn [map]. rewrite E1. f_equal. exact IH.
Qed.
(*ACTS*)
Definition akin {A} (x : types) (R : A -> A -> Prop) (a b : pst * A) : Prop := kin x (fst a) (fst b) /\ R (snd a) (snd b).
Lemma hput_names : forall A k (v v' : A) l l', map fst l = map fst l' -> map fst (hput k v l) = map fst (hput k v' l').
Proof.
  induction l as [|[a x] l IH]; intros [|[b y] l'] E; try discriminate E; [reflexivity|]. cbn [map fst] in E. injection E as <- E. cbn [hput].
  destruct (str_eqb k a); cbn [map fst]; f_equal; auto.
Qed.
Lemma same_push : forall l l' e e', same_errors l l' -> error_names e = error_names e' -> same_errors (vpush l e) (vpush l' e').
Proof. intros l l' e e' E X. unfold same_errors, vpush in *. rewrite !map_app. cbn [map]. congruence. Qed.
Lemma keyval_kin : forall x s t k sep sep' c d, kin x s t -> ckin c d ->
  rsim (akin x (fun _ _ => True)) (keyval_act k sep c s) (keyval_act k sep' d t).
Proof.
  intros x s t k sep sep' c d H C. unfold keyval_act. eapply rs_bind with (R := kin x); [|intros a b X; split; cbn; auto; apply kn_pop_key; auto].
  rewrite (kn_aerr _ _ _ H). destruct (p_array_error t); [|apply insert_kin; auto].
  pose proof (errors_last _ _ (kn_errors _ _ _ H)) as L. destruct (vlast (p_errors s)) as [e|], (vlast (p_errors t)) as [e'|]; cbn [orel] in L; try contradiction; [|exact I].
  pose proof (errors_pop _ _ (kn_errors _ _ _ H)) as PO.
  destruct e, e'; cbn [error_names] in L; try discriminate L; try (cbn [rsim]; apply kn_set_errors; auto; apply same_push; auto).
  injection L as <- L. destruct (to_val_kin _ _ C) as [(v & v' & -> & -> & _)|E].
  - cbn [rbind rsim]. apply kn_set_errors; auto. apply same_push; auto. cbn [error_names]. f_equal. apply hput_names; auto.
  - rewrite E. destruct (to_val (c_val d)); cbn [rbind rsim]; auto. apply kn_set_errors; auto. apply same_push; auto. cbn [error_names]. f_equal. apply hput_names; auto.
Qed.
(** the types change in both runs, or in none *)
Definition turn (T T' a a' : array_type) : Prop := (T = ANone <-> T' = ANone) /\ (T <> ANone -> (T = a <-> T' = a')).
Lemma atype_eqb : forall a b, array_type_eqb a b = true <-> a = b.
Proof. intros a b. destruct a, b; cbn; split; intros; try discriminate; reflexivity. Qed.
Lemma vlast_snoc : forall A (l : list A) x, vlast (l ++ [x]) = Some x.
Proof. intros A l x. unfold vlast. rewrite app_length, Nat.add_sub, nth_error_app2, Nat.sub_diag by lia. destruct l; reflexivity. Qed.
Lemma vpop_snoc : forall A (l : list A) x, vpop (l ++ [x]) = l.
Proof. intros. unfold vpop. apply removelast_last. Qed.
Lemma mixed_kin : forall x T T' s t a a', kin (x ++ [(T, T')]) s t -> turn T T' a a' -> rsim (kin (x ++ [(T, T')])) (check_mixed a s) (check_mixed a' t).
Proof.
  intros x T T' s t a a' H [TU1 TU2]. unfold check_mixed. rewrite (kn_atypes _ _ _ H), (kn_atypes' _ _ _ H), !map_app. cbn [map fst snd]. rewrite !vlast_snoc.
  assert (B : negb (array_type_eqb T ANone) && negb (array_type_eqb T a) = negb (array_type_eqb T' ANone) && negb (array_type_eqb T' a')).
  { pose proof (atype_eqb T ANone) as A1. pose proof (atype_eqb T' ANone) as A2. pose proof (atype_eqb T a) as A3. pose proof (atype_eqb T' a') as A4.
    destruct (array_type_eqb T ANone), (array_type_eqb T' ANone), (array_type_eqb T a), (array_type_eqb T' a'); cbn; auto; exfalso; intuition (try discriminate; try congruence). }
  rewrite B. clear B. destruct (negb _ && negb _); [|exact H]. rewrite (kn_ovf _ _ _ H), (kn_tindex _ _ _ H), (kn_keychain _ _ _ H).
  rewrite (full_kin _ _ _ _ _ _ _ (kn_map _ _ _ H) (kn_tables _ _ _ H)). destruct (get_full_key _ _ _ _ _) as [[[v fk] pk]| |]; cbn [rbind rsim]; auto.
  pose proof (errors_last _ _ (kn_errors _ _ _ H)) as L. destruct (vlast (p_errors s)) as [e|], (vlast (p_errors t)) as [e'|]; cbn [orel] in L; try contradiction; [|apply kn_error; auto].
  destruct e, e'; cbn [error_names] in L; try discriminate L; auto. injection L as <-. destruct (negb (starts_with key fk)); auto. apply kn_error; auto.
Qed.
Lemma value_kin : forall x T T' s t c d a a' sep sep' n n', kin (x ++ [(T, T')]) s t -> ckin c d ->
  map_val_to_array_type (c_val c) = Ok a -> map_val_to_array_type (c_val d) = Ok a' -> turn T T' a a' ->
  rsim (akin (x ++ [(a, a')]) (fun a b => a.(av_val) = c /\ b.(av_val) = d)) (array_value_act c sep n s) (array_value_act d sep' n' t).
Proof.
  intros x T T' s t c d a a' sep sep' n n' H C A A' TU. unfold array_value_act. rewrite A, A'. cbn [rbind].
  eapply rs_bind; [apply mixed_kin; eauto|]. intros s1 t1 H1. rewrite (kn_atypes _ _ _ H1), (kn_atypes' _ _ _ H1), !map_app. cbn [map fst snd]. rewrite !vpop_snoc.
  eapply rs_bind; [apply insert_kin; [eapply kn_set_atypes with (y := x ++ [(a, a')]); [eauto|unfold vpush; rewrite map_app; reflexivity..]|exact C]|].
  intros s2 t2 H2. cbn [p_keychain set_atypes]. rewrite (kn_keychain _ _ _ H1), (kn_keychain _ _ _ H2). destruct (nth_error _ _); cbn [rsim]; auto.
  split; cbn [fst snd]; [apply kn_set_chain; auto|auto].
Qed.
Lemma drop_kin : forall x s t n, kin x s t -> rsim (kin x) (keychain_drop n s) (keychain_drop n t).
Proof. intros x s t n H. unfold keychain_drop. rewrite (kn_keychain _ _ _ H). destruct (Nat.ltb _ _); cbn; auto. apply kn_set_chain; auto. Qed.

(** ** Headers *)
(*REST*)
Lemma ait_kin : forall ks ks', map wk_key ks = map wk_key ks' -> forall m m' f lk, mkin m m' -> rsim mkin (ait_loop m ks f lk) (ait_loop m' ks' f lk).
Proof.
  induction ks as [|k ks IH]; intros [|k' ks'] E m m' f lk M; try discriminate E; [exact M|]. cbn [map] in E. injection E as EK E. specialize (IH ks' E).
  cbn [ait_loop].
  set (R := fun x y : vmap * bool * bool => mkin (fst (fst x)) (fst (fst y)) /\ snd (fst x) = snd (fst y) /\ snd x = snd y).
  eapply rs_bind with (R := R).
  - hcase M lk m m'; [|cbn; unfold R; auto]. rewrite EK. destruct hv_subkeys0 as [c|l].
    + destruct f; cbn; auto. unfold R. cbn. repeat split; auto; apply kin_put; auto.
    + destruct (vinsert l (wk_key k')) as [l' ins]. cbn. unfold R. cbn. repeat split; auto; apply kin_put; auto.
  - intros [[m1 i1] f1] [[m2 i2] f2] (M1 & I1 & F1). cbn [fst snd] in *. subst i2 f2.
    destruct ks as [|k2 ks], ks' as [|k2' ks']; try discriminate E; [exact M1|]. rewrite EK. apply IH. destruct i1; auto. apply mkin_put; auto. apply hkin_refl.
Qed.
Lemma implicit_kin : forall b m m' ts ts' ti t t', mkin m m' -> Forall2 ttsame ts ts' -> ttsame t t' ->
  rsim mkin (add_implicit_tables b m ts ti t) (add_implicit_tables b m' ts' ti t').
Proof.
  intros b m m' ts ts' ti t t' M T N. unfold add_implicit_tables. rewrite (gatk_kin b m m' ts ts' ti M T).
  destruct (get_array_table_key b m' ts' ti) as [[[v lk] pk]| |]; cbn [rbind rsim]; auto. destruct (negb v); [exact M|].
  pose proof (f2_last _ _ _ _ T) as L. destruct (vlast ts) as [l|], (vlast ts') as [l'|]; cbn [orel] in L; try contradiction.
  - rewrite (tt_len _ _ L). apply ait_kin; auto. apply skipn_names, tt_names, N.
  - apply ait_kin; auto. apply skipn_names, tt_names, N.
Qed.
Lemma incr_kin : forall m m' ts ts' ti, mkin m m' -> Forall2 ttsame ts ts' ->
  rsim (fun x y => mkin (fst x) (fst y) /\ snd x = snd y) (increment_array_table_index m ts ti) (increment_array_table_index m' ts' ti).
Proof.
  intros m m' ts ts' ti M T. unfold increment_array_table_index. rewrite (parent_same ts ts' ti T). destruct (get_key_parent ts' ti) as [pk| |]; cbn [rbind rsim]; auto.
  destruct (vlast ti); cbn [rsim]; auto. cbn [fst snd]. split; auto. hcase M pk m m'; auto. destruct hv_subkeys0; auto. apply kin_put; auto.
Qed.
Lemma set_kin : forall m m' ts ts' ti k, mkin m m' -> Forall2 ttsame ts ts' -> rsim mkin (add_to_table_set m ts ti k) (add_to_table_set m' ts' ti k).
Proof.
  intros m m' ts ts' ti k M T. unfold add_to_table_set. rewrite (parent_same ts ts' ti T). destruct (get_key_parent ts' ti) as [pk| |]; cbn [rbind rsim]; auto.
  hcase M pk m m'; auto. destruct hv_subkeys0; auto. apply kin_put; auto.
Qed.
Lemma std_kin : forall x s t w1 w2 w1' w2' k l l', kin x s t -> map wk_key l = map wk_key l' ->
  rsim (akin x (fun _ _ => True)) (std_table_act w1 w2 k l s) (std_table_act w1' w2' k l' t).
Proof.
  intros x s t w1 w2 w1' w2' k l l' H L. unfold std_table_act.
  assert (LN : length l = length l') by (rewrite <- (map_length wk_key l), L; apply map_length). rewrite LN.
  eapply rs_bind; [apply drop_kin; eauto|]. clear s t H. intros s t H.
  pose proof (new_same {| ws1 := w1; ws2 := w2 |} {| ws1 := w1'; ws2 := w2' |} k l l' L) as TN.
  set (tb := table_new {| ws1 := w1; ws2 := w2 |} k l) in *. set (tb' := table_new {| ws1 := w1'; ws2 := w2' |} k l') in *.
  assert (RT : ttsame (TStandard tb) (TStandard tb')) by exact TN.
  destruct H as [M E T I K LT A A' AE NX O] eqn:HH. clear HH.
  set (x1 := if is_top_std_table (p_tables s) || equal_key_length (TStandard tb) (p_tables s) then (vpop (p_tables s), vpop (p_tindex s)) else (p_tables s, p_tindex s)).
  set (y1 := if is_top_std_table (p_tables t) || equal_key_length (TStandard tb') (p_tables t) then (vpop (p_tables t), vpop (p_tindex t)) else (p_tables t, p_tindex t)).
  assert (P1 : psame x1 y1).
  { unfold x1, y1. rewrite (top_same _ _ T), (eql_same _ _ _ _ RT T), I. match goal with |- psame (if ?b then _ else _) _ => destruct b end; split; cbn; auto. apply f2_pop; auto. }
  destruct x1 as [ts1 ti1], y1 as [ts1' ti1']. destruct P1 as [T1 I1]. cbn [fst snd] in T1, I1. subst ti1'.
  rewrite (tt_format _ _ RT).
  match goal with |- rsim _ (let '(_, _) := ?x in _) (let '(_, _) := ?y in _) => set (x2 := x); set (y2 := y) end.
  assert (P2 : psame x2 y2).
  { unfold x2, y2. pose proof (f2_last _ _ _ _ T1) as LL. destruct (vlast ts1) as [a|], (vlast ts1') as [b|]; cbn [orel] in LL; try contradiction; [|split; auto].
    rewrite (tt_format _ _ LL), (tt_sub _ _ _ _ RT LL). match goal with |- psame (if ?b then _ else _) _ => destruct b end; [split; auto|]. match goal with |- psame (if ?b then _ else _) _ => destruct b end; [split; auto|].
    pose proof (pop_sub_same _ _ RT _ _ (f2_rev _ _ _ _ T1) (rev ti1)) as [PA PB].
    destruct (pop_until_sub (TStandard tb) (rev ts1) (rev ti1)), (pop_until_sub (TStandard tb') (rev ts1') (rev ti1)). cbn [fst snd] in *. subst. split; cbn; auto. apply f2_rev; auto. }
  destruct x2 as [ts ti], y2 as [ts' ti']. destruct P2 as [T2 I2]. cbn [fst snd] in T2, I2. subst ti'.
  rewrite O. pose proof (gatk_kin (p_ovf t) _ _ _ _ (vpush ti 0) M (f2_push _ _ _ _ _ _ T2 RT)) as G. rewrite G.
  eapply rs_bind with (R := eq).
  { apply rs_same. pose proof (f2_last _ _ _ _ T2) as LL. destruct (vlast ts) as [a|], (vlast ts') as [b|]; cbn [orel] in LL; try contradiction; [rewrite (tt_format _ _ LL); destruct (str_eqb _ _); auto|];
      (destruct (get_array_table_key (p_ovf t) (p_map t) (vpush ts' (TStandard tb')) (vpush ti 0)) as [[[v tk] pk]| |]; cbn [rbind]; auto;
       destruct (negb v); auto; rewrite (khcv_kin _ _ pk M); destruct (key_has_children_with_values (p_map t) pk) as [[|]| |]; cbn [rbind]; auto;
       f_equal; f_equal; f_equal; hcase M tk (p_map s) (p_map t); auto; destruct hv_value, hv_value0; cbn [orel] in V; try contradiction; auto; apply is_table_kin; auto). }
  intros [[er tk] pk] y <-. destruct er.
  - destruct (get_array_table_key (p_ovf t) (p_map t) (vpush ts' (TStandard tb')) (vpush ti 0)) as [[[v atk] pk2]| |]; cbn [rbind rsim]; auto.
    split; cbn [fst snd]; auto. apply kn_set_aerr, kn_error; auto. apply kn_set_tables; auto.
  - eapply rs_bind; [apply implicit_kin; eauto|]. intros m1 m1' M1. rewrite TN.
    eapply rs_bind; [apply set_kin; eauto|]. intros m2 m2' M2. unfold new_cell. cbn [c_id].
    set (m3 := match hget tk m2 with Some hv => _ | None => _ end). set (m3' := match hget tk m2' with Some hv => _ | None => _ end).
    assert (M3 : mkin m3 m3').
    { unfold m3, m3'. rewrite NX. hcase M2 tk m2 m2'; [apply kin_put; auto; apply ckin_refl|apply mkin_put; auto; apply hkin_refl]. }
    eapply rs_bind with (R := mkin).
    + hcase M3 pk m3 m3'; [|exact M3]. destruct hv_subkeys0; cbn [rsim]; auto. apply kin_put; auto.
    + intros m4 m4' M4. split; cbn [fst snd]; auto. apply kn_set_last; [|exact RT]. apply kn_set_aerr, kn_set_map; auto. apply kn_set_tables; [rewrite NX; apply kn_set_next; auto|]. apply f2_push; auto.
Qed.
Lemma arr_kin : forall x s t w1 w2 w1' w2' k l l', kin x s t -> map wk_key l = map wk_key l' ->
  rsim (akin x (fun _ _ => True)) (array_table_act w1 w2 k l s) (array_table_act w1' w2' k l' t).
Proof.
  intros x s t w1 w2 w1' w2' k l l' H L. unfold array_table_act.
  assert (LN : length l = length l') by (rewrite <- (map_length wk_key l), L; apply map_length). rewrite LN.
  eapply rs_bind; [apply drop_kin; eauto|]. clear s t H. intros s t H.
  pose proof (new_same {| ws1 := w1; ws2 := w2 |} {| ws1 := w1'; ws2 := w2' |} k l l' L) as TN.
  set (tb := table_new {| ws1 := w1; ws2 := w2 |} k l) in *. set (tb' := table_new {| ws1 := w1'; ws2 := w2' |} k l') in *.
  assert (RT : ttsame (TArrayOf tb) (TArrayOf tb')) by exact TN.
  destruct H as [M E T I K LT A A' AE NX O] eqn:HH. clear HH.
  set (x1 := if is_top_std_table (p_tables s) then (vpop (p_tables s), vpop (p_tindex s)) else (p_tables s, p_tindex s)).
  set (y1 := if is_top_std_table (p_tables t) then (vpop (p_tables t), vpop (p_tindex t)) else (p_tables t, p_tindex t)).
  assert (P1 : psame x1 y1).
  { unfold x1, y1. rewrite (top_same _ _ T), I. match goal with |- psame (if ?b then _ else _) _ => destruct b end; split; cbn; auto. apply f2_pop; auto. }
  destruct x1 as [ts1 ti1], y1 as [ts1' ti1']. destruct P1 as [T1 I1]. cbn [fst snd] in T1, I1. subst ti1'.
  cbn [set_array_error p_map p_ovf p_line]. rewrite (tt_format _ _ RT), O.
  eapply rs_bind with (R := fun x y => mkin (fst (fst x)) (fst (fst y)) /\ Forall2 ttsame (snd (fst x)) (snd (fst y)) /\ snd x = snd y).
  - pose proof (f2_last _ _ _ _ T1) as LL. destruct (vlast ts1) as [a|], (vlast ts1') as [b|]; cbn [orel] in LL; try contradiction.
    + rewrite (tt_format _ _ LL), (tt_sub _ _ _ _ RT LL). destruct (str_eqb _ _).
      { eapply rs_bind; [apply incr_kin; eauto|]. intros [m1 i1] [m2 i2] [A1 A2]. cbn in *. auto. }
      destruct (is_subtable_of _ _).
      { eapply rs_bind; [apply implicit_kin; eauto|]. intros m1 m2 A1. cbn. repeat split; auto. apply f2_push; auto. }
      pose proof (pop_key_same (format_tt_keys (TArrayOf tb')) _ _ (f2_rev _ _ _ _ T1) (rev ti1)) as [PA PB].
      destruct (pop_until_key (format_tt_keys (TArrayOf tb')) (rev ts1) (rev ti1)) as [ra rb], (pop_until_key (format_tt_keys (TArrayOf tb')) (rev ts1') (rev ti1)) as [ra' rb']. cbn [fst snd] in *. subst rb'.
      apply f2_rev in PA. destruct PA as [|z z' zs zs' PZ PA].
      * eapply rs_bind; [apply implicit_kin; eauto|]. intros m1 m2 A1.
        assert (T3 : Forall2 ttsame (vpush [] (TArrayOf tb)) (vpush [] (TArrayOf tb'))) by (apply f2_push; auto).
        rewrite (parent_same _ _ (vpush (rev rb) 0) T3). destruct (get_key_parent _ _) as [pk| |]; cbn [rbind rsim]; auto.
        rewrite (hmem_kin _ _ pk A1). destruct (hmem pk m2); [|cbn; auto].
        eapply rs_bind; [apply incr_kin; eauto|]. intros [m3 i3] [m4 i4] [A3 A4]. cbn in *. auto.
      * assert (T3 : Forall2 ttsame (z :: zs) (z' :: zs')) by (constructor; auto).
        eapply rs_bind; [apply incr_kin; eauto|]. intros [m3 i3] [m4 i4] [A3 A4]. cbn in *. auto.
    + eapply rs_bind; [apply implicit_kin; eauto|]. intros m1 m2 A1. cbn. repeat split; auto. apply f2_push; auto.
  - intros [[m ts] ti] [[m' ts'] ti'] (M2 & T2 & I2). cbn [fst snd] in *. subst ti'. rewrite (gatk_kin (p_ovf t) m m' ts ts' ti M2 T2).
    destruct (get_array_table_key (p_ovf t) m' ts' ti) as [[[v fk] pk]| |]; cbn [rbind rsim]; auto. destruct (negb v).
    + split; cbn [fst snd]; auto. apply kn_error; auto. apply kn_set_map; auto. apply kn_set_tables; auto. apply kn_set_aerr; auto.
    + split; cbn [fst snd]; auto. apply kn_set_last; [|exact RT]. apply kn_set_map; [apply kn_set_tables; auto; apply kn_set_aerr; auto|].
      apply mkin_put; [|apply hkin_refl]. rewrite (hmem_kin _ _ pk M2). destruct (hmem pk m'); auto. apply mkin_put; auto. apply hkin_refl.
Qed.


(** ** Readings *)
Definition pair {A} (i j : types) (p q : P A) (t r t' r' : str) (Q : A -> A -> Prop) : Prop := forall s u, kin i s u ->
  rsim (fun x y => kin j (fst x) (fst y) /\ exists a b, snd x = Done r a /\ snd y = Done r' b /\ Q a b) (p s (t ++ r)) (q u (t' ++ r')).

Lemma k_weak : forall A i j (p q : P A) t r t' r' (Q Q' : A -> A -> Prop), pair i j p q t r t' r' Q -> (forall a b, Q a b -> Q' a b) -> pair i j p q t r t' r' Q'.
Proof.
  intros A i j p q t r t' r' Q Q' B W s u H. specialize (B s u H). destruct (p s (t ++ r)), (q u (t' ++ r')); cbn [rsim] in *; try contradiction; auto.
  destruct B as (B & x & y & E1 & E2 & X). split; auto. exists x, y. auto.
Qed.
Lemma k_bind : forall A B i j k (p q : P A) (f g : A -> P B) (Q : A -> A -> Prop) (Q' : B -> B -> Prop) t x r t' x' r', pair i j p q t (x ++ r) t' (x' ++ r') Q ->
  (forall a b, Q a b -> pair j k (f a) (g b) x r x' r' Q') -> pair i k (bind p f) (bind q g) (t ++ x) r (t' ++ x') r' Q'.
Proof.
  intros A B i j k p q f g Q Q' t x r t' x' r' BP F s u H. rewrite <- !app_assoc. unfold bind. eapply rs_bind; [apply BP; eauto|].
  intros [s1 r1] [u1 r1'] (H1 & a & b & E1 & E2 & X). cbn [fst snd] in *. subst r1 r1'. apply F; auto.
Qed.
Lemma k_ret : forall A i (a b : A) (Q : A -> A -> Prop) r r', Q a b -> pair i i (ret a) (ret b) [] r [] r' Q.
Proof. intros A i a b Q r r' X s u H. cbn. split; auto. exists a, b. auto. Qed.
Lemma k_ok : forall A i (p q : P A) (a b : A) (Q : A -> A -> Prop) t r t' r', (forall s, p s (t ++ r) = Ok (s, Done r a)) -> (forall s, q s (t' ++ r') = Ok (s, Done r' b)) -> Q a b ->
  pair i i p q t r t' r' Q.
Proof. intros A i p q a b Q t r t' r' E1 E2 X s u H. rewrite E1, E2. cbn. split; auto. exists a, b. auto. Qed.
Lemma k_complete : forall A i j (p q : P A) t r t' r' Q, pair i j p q t r t' r' Q -> pair i j (complete p) (complete q) t r t' r' Q.
Proof.
  intros A i j p q t r t' r' Q B s u H. unfold complete. eapply rs_bind; [apply B; eauto|]. intros [s1 r1] [u1 r1'] (H1 & a & b & E1 & E2 & X). cbn [fst snd] in *. subst.
  cbn. split; auto. exists a, b. auto.
Qed.
Lemma k_opt : forall A i j (p q : P A) t r t' r' (Q : A -> A -> Prop), pair i j p q t r t' r' Q ->
  pair i j (opt p) (opt q) t r t' r' (fun o o' => exists a b, o = Some a /\ o' = Some b /\ Q a b).
Proof.
  intros A i j p q t r t' r' Q B s u H. unfold opt. eapply rs_bind; [apply B; eauto|]. intros [s1 r1] [u1 r1'] (H1 & a & b & E1 & E2 & X). cbn [fst snd] in *. subst.
  cbn. split; auto. exists (Some a), (Some b). repeat split; auto. eauto.
Qed.
Lemma k_alt : forall A i j (p q p2 q2 : P A) t r t' r' Q, pair i j p q t r t' r' Q -> pair i j (alt p p2) (alt q q2) t r t' r' Q.
Proof.
  intros A i j p q p2 q2 t r t' r' Q B s u H. unfold alt. eapply rs_bind; [apply B; eauto|]. intros [s1 r1] [u1 r1'] (H1 & a & b & E1 & E2 & X). cbn [fst snd] in *. subst.
  cbn. split; auto. exists a, b. auto.
Qed.
Lemma k_skip : forall A i j (p q p2 q2 : P A) t r t' r' Q, (forall s, p s (t ++ r) = Ok (s, Error)) -> (forall s, q s (t' ++ r') = Ok (s, Error)) ->
  pair i j p2 q2 t r t' r' Q -> pair i j (alt p p2) (alt q q2) t r t' r' Q.
Proof. intros A i j p q p2 q2 t r t' r' Q E1 E2 B s u H. unfold alt. rewrite E1, E2. cbn [rbind]. apply B; auto. Qed.
Lemma k_act : forall A i j (f g : pst -> res (pst * A)) (Q : A -> A -> Prop) r r', (forall s u, kin i s u -> rsim (akin j Q) (f s) (g u)) -> pair i j (act f) (act g) [] r [] r' Q.
Proof.
  intros A i j f g Q r r' F s u H. unfold act. eapply rs_bind; [apply F; eauto|]. intros [s1 a] [u1 b] [H1 X]. cbn in *. split; auto. exists a, b. auto.
Qed.
Lemma k_cell : forall A i j (p q : P A) (f : A -> tval) (Q : A -> A -> Prop) (Q' : cell -> cell -> Prop) t r t' r', pair i j p q t r t' r' Q ->
  (forall a b n, Q a b -> Q' (Cell n (f a)) (Cell n (f b))) -> pair i j (pcell p f) (pcell q f) t r t' r' Q'.
Proof.
  intros A i j p q f Q Q' t r t' r' B W. unfold pcell. rewrite <- (app_nil_r t), <- (app_nil_r t'). eapply k_bind; [rewrite !app_nil_l; apply k_complete; eauto|].
  intros a b X. apply k_act. intros s u H. unfold new_cell. rewrite (kn_next _ _ _ H). split; cbn [fst snd]; auto. apply kn_set_next; auto.
Qed.
Lemma k_loop : forall A i j k (p q : P A) (Q : A -> A -> Prop) (QL QL' : list A -> list A -> Prop) t x r t' x' r' n m, t <> [] -> t' <> [] ->
  pair i j p q t (x ++ r) t' (x' ++ r') Q -> pair j k (many_loop n p) (many_loop m q) x r x' r' QL -> (forall a b l l', Q a b -> QL l l' -> QL' (a :: l) (b :: l')) ->
  pair i k (many_loop (S n) p) (many_loop (S m) q) (t ++ x) r (t' ++ x') r' QL'.
Proof.
  intros A i j k p q Q QL QL' t x r t' x' r' n m N N' BP BL W s u H. rewrite <- !app_assoc. cbn [many_loop].
  assert (NE : forall t x r : str, t <> [] -> Nat.eqb (length (x ++ r)) (length (t ++ x ++ r)) = false).
  { clear. intros t x r N. apply Nat.eqb_neq. rewrite (app_length t). destruct t; [congruence|]. cbn [length]. lia. }
  destruct (t ++ x ++ r) as [|c0 i0] eqn:I1; [destruct t; [congruence|discriminate]|]. rewrite <- I1. clear c0 i0 I1.
  destruct (t' ++ x' ++ r') as [|c0 i0] eqn:I1; [destruct t'; [congruence|discriminate]|]. rewrite <- I1. clear c0 i0 I1.
  eapply rs_bind; [apply BP; eauto|]. intros [s1 r1] [u1 r1'] (H1 & a & b & E1 & E2 & X). cbn [fst snd] in *. subst r1 r1'. rewrite !NE by auto.
  eapply rs_bind; [apply BL; eauto|]. intros [s2 r2] [u2 r2'] (H2 & l & l' & E1 & E2 & XL). cbn [fst snd] in *. subst r2 r2'. cbn. split; auto. exists (a :: l), (b :: l'). auto.
Qed.
Lemma k_many0 : forall A i j (p q : P A) t r t' r' Q, pair i j (many_loop (S (length (t ++ r))) p) (many_loop (S (length (t' ++ r'))) q) t r t' r' Q -> pair i j (many0 p) (many0 q) t r t' r' Q.
Proof. intros A i j p q t r t' r' Q B s u H. unfold many0. apply B; auto. Qed.
Lemma k_tag : forall i t r r', pair i i (tag t) (tag t) t r t r' (fun _ _ => True).
Proof. intros i t r r'. eapply k_ok; auto using tag_ok. Qed.
Lemma k_ws : forall i w w' r r', blanks w -> blanks w' -> no_blank r -> no_blank r' -> pair i i ws ws w r w' r' (fun _ _ => True).
Proof. intros. eapply k_ok; auto; intros; apply ws_ok; auto. Qed.
Lemma k_key : forall i k r r', key_name k -> match r with [] => True | c :: _ => ~ bare_char c end -> match r' with [] => True | c :: _ => ~ bare_char c end ->
  pair i i key_p key_p k r k r' (fun a b => a = k /\ b = k).
Proof. intros i k r r' K R R' s u H. rewrite !key_p_bare by auto. cbn. split; [apply kn_push_key; auto|]. exists k, k. auto. Qed.
Lemma k_gap : forall i g g' r r', gap g -> gap g' -> solid r -> solid r' -> pair i i comment_or_nls comment_or_nls g r g' r' (fun _ _ => True).
Proof.
  intros i g g' r r' G G' S S' s u H. destruct (gap_ok g r s G S) as (l & E & _). destruct (gap_ok g' r' u G' S') as (l' & E' & _). rewrite E, E'. cbn. split; auto. exists l, l'. auto.
Qed.
Lemma k_tail : forall A i j (f g : option wssep -> list comment_or_newlines -> P A) Q y r y' r', tail_text y -> tail_text y' -> solid r -> solid r' -> head_not 44 r -> head_not 44 r' ->
  (forall sep nls sep' nls', pair i j (f sep nls) (g sep' nls') [] r [] r' Q) ->
  pair i j (bind (opt (complete array_sep)) (fun sep => bind (complete comment_or_nls) (fun nls => f sep nls)))
       (bind (opt (complete array_sep)) (fun sep => bind (complete comment_or_nls) (fun nls => g sep nls))) y r y' r' Q.
Proof.
  intros A i j f g Q y r y' r' Y Y' S S' N N' F s u H. destruct (tail_ok y r s Y S N) as (sep & nls & y2 & E1 & E2 & _). destruct (tail_ok y' r' u Y' S' N') as (sep' & nls' & y2' & E1' & E2' & _).
  rewrite (bind_ok _ _ _ _ _ _ _ E1), (bind_ok _ _ _ _ _ _ _ E2), (bind_ok _ _ _ _ _ _ _ E1'), (bind_ok _ _ _ _ _ _ _ E2'). apply F; auto.
Qed.

(** ** Values *)
Definition skin (v v' : value) (c d : cell) : Prop := says v c /\ says v' d /\ ids (subcells c) = ids (subcells d).
Definition pair_value (p q : P cell) (v v' : value) (t t' : str) : Prop := forall i r r', ends_value r -> ends_value r' -> pair i i p q t r t' r' (skin v v').
Lemma skin_kin : forall v v' c d, skin v v' c d -> kindred v v' -> ckin c d.
Proof. intros v v' c d (A & B & E) K. split; [unfold subcells in E; cbn [ids map] in E; congruence|]. right. exists v, v'. auto. Qed.

(** reading a scalar: nothing happens, unless it is a date-time that does not exist *)
Lemma read_sound : forall p v t r s, scalar_value v -> denotes v t -> ends_value r -> sound_date v = true -> exists ln x,
  val_ p s (t ++ r) = Ok (set_next (p_next s + 1) (set_line ln s), Done r (Cell s.(p_next) x)) /\ to_val x = Ok v /\ tcells x = [].
Proof.
  intros p v t r s SV D R SD. destruct D as [v t S|d D| |]; try contradiction.
  - exists (p_line (add_lines (line_feeds t) s)), (tval_of v). rewrite (val_scalar_ _ v t) by auto. split; [reflexivity|]. split; [eapply to_val_of; eauto|]. destruct S; reflexivity.
  - cbn [sound_date] in SD. exists (p_line s), (TDateTime d). split; [|split; reflexivity]. 
    unfold val_.
    assert (HD : forall r, match datetime_src d ++ r with [] => False | c :: _ => c = 43 \/ c = 45 \/ digit c end).
    { clear - D. intros r. destruct D as [([Y L] & _) _]. unfold datetime_src. rewrite <- app_assoc.
      destruct (d_year (dt_date d)) as [|c y]; [discriminate|]. inversion Y; subst. cbn [app]. auto. }
    erewrite alt_err by (apply arr_err; eapply num_head_not; [apply HD|unfold digit; lia..]). erewrite alt_err by (apply inl_err; eapply num_head_not; [apply HD|unfold digit; lia..]).
    apply alt_ok. erewrite pcell_ok; [destruct s; reflexivity|].
    unfold date_time. rewrite datetime_src_show. rewrite !dti_ok by (auto; apply ends_dt_stop; auto). cbn [rbind]. rewrite <- exists_validate, SD by auto. reflexivity.
Qed.
Lemma read_unsound : forall p v t r s, scalar_value v -> denotes v t -> ends_value r -> sound_date v = false -> exists x,
  val_ p s (t ++ r) = rbind (get_full_key s.(p_ovf) s.(p_map) s.(p_tables) s.(p_tindex) s.(p_keychain)) (fun y =>
    Ok (set_next (p_next s + 1) (push_error (EInvalidDateTime (snd (fst y)) s.(p_line) t) s), Done r (Cell s.(p_next) x))) /\ to_val x = Ok v /\ tcells x = [].
Proof.
  intros p v t r s SV D R SD. destruct v as [| | |d| | |]; try discriminate SD; try contradiction. exists (TDateTime d). split; [|split; reflexivity].
  cbn [sound_date] in SD. assert (DD : datetime_digits d /\ t = datetime_src d).
  { inversion D as [v t0 S|d0 D0| |]; subst; [|auto]. inversion S as [| | | |d0 G| | | |]; subst. split; auto. destruct G; auto. }
  destruct DD as [DD ->]. clear D. unfold val_.
  assert (HD : forall r, match datetime_src d ++ r with [] => False | c :: _ => c = 43 \/ c = 45 \/ digit c end).
  { clear - DD. intros r. destruct DD as [([Y L] & _) _]. unfold datetime_src. rewrite <- app_assoc.
    destruct (d_year (dt_date d)) as [|c y]; [discriminate|]. inversion Y; subst. cbn [app]. auto. }
  erewrite alt_err by (apply arr_err; eapply num_head_not; [apply HD|unfold digit; lia..]). erewrite alt_err by (apply inl_err; eapply num_head_not; [apply HD|unfold digit; lia..]).
  unfold alt at 1. unfold pcell at 1. unfold bind at 1. unfold complete at 1. unfold date_time. rewrite datetime_src_show.
  rewrite !dti_ok by (auto; apply ends_dt_stop; auto). cbn [rbind]. rewrite <- exists_validate, SD by auto.
  destruct (get_full_key _ _ _ _ _) as [[[v fk] pk]| |]; cbn [rbind]; auto.
  rewrite !app_length, !Nat.add_sub, !firstn_app, !Nat.sub_diag, !firstn_all. cbn [firstn]. rewrite app_nil_r. reflexivity.
Qed.
Lemma k_scalar : forall p q v v' t t', scalar_value v -> scalar_value v' -> sound_date v = sound_date v' -> denotes v t -> denotes v' t' -> pair_value (val_ p) (val_ q) v v' t t'.
Proof.
  intros p q v v' t t' SV SV' SD D D' i r r' R R' s u H. destruct (sound_date v) eqn:E.
  - destruct (read_sound p v t r s SV D R E) as (ln & x & -> & X1 & X2). destruct (read_sound q v' t' r' u SV' D' R' (eq_sym SD)) as (ln' & x' & -> & X1' & X2').
    cbn [rsim fst snd]. rewrite (kn_next _ _ _ H). split; [apply kn_set_next, kn_set_line; auto|]. eexists. eexists. split; [reflexivity|]. split; [reflexivity|].
    repeat split; auto. unfold subcells. cbn [c_val]. rewrite X2, X2'. reflexivity.
  - destruct (read_unsound p v t r s SV D R E) as (x & -> & X1 & X2). destruct (read_unsound q v' t' r' u SV' D' R' (eq_sym SD)) as (x' & -> & X1' & X2').
    rewrite (kn_ovf _ _ _ H), (kn_tindex _ _ _ H), (kn_keychain _ _ _ H), (full_kin _ _ _ _ _ _ _ (kn_map _ _ _ H) (kn_tables _ _ _ H)).
    destruct (get_full_key _ _ _ _ _) as [[[v0 fk] pk]| |]; cbn [rbind rsim fst snd]; auto. rewrite (kn_next _ _ _ H).
    split; [apply kn_set_next, kn_error; auto|]. eexists. eexists. split; [reflexivity|]. split; [reflexivity|].
    repeat split; auto. unfold subcells. cbn [c_val]. rewrite X2, X2'. reflexivity.
Qed.

(** the type of an element *)
Definition tag_of (v : value) : array_type := match v with VInteger _ => AInteger | VFloat _ => AFloat | VBoolean _ => ABoolean | VDateTime _ => ADateTime
  | VArray _ => AArray | VString _ _ => AString | VInlineTable _ => AInlineTable end.
Lemma tag_kind : forall a b, tag_of a = tag_of b <-> DocSpec.kind a = DocSpec.kind b.
Proof. intros [] []; cbn; split; intros X; try discriminate X; reflexivity. Qed.
Lemma tag_some : forall v, tag_of v <> ANone.
Proof. intros []; discriminate. Qed.
Lemma tag_says : forall v c, says v c -> map_val_to_array_type (c_val c) = Ok (tag_of v).
Proof.
  intros v [i x] H. unfold says in H. cbn [c_val] in *. destruct x; cbn [to_val] in H; try (inversion H; subst; reflexivity);
    apply rbind_ok in H as (l & _ & H); inversion H; reflexivity.
Qed.
Definition turns (T T' : array_type) (vs vs' : list value) : Prop := match vs, vs' with v :: _, v' :: _ => turn T T' (tag_of v) (tag_of v') | _, _ => True end.
Definition av_ids (l : list array_value) : list N := ids (flat_map (fun av => subcells av.(av_val)) l).
Definition pair_elems (p q : P cell) (vs vs' : list value) (t t' : str) : Prop := forall i T T', turns T T' vs vs' -> exists T1 T1', forall n m r r', (length (t ++ lit "]" ++ r) < n)%nat -> (length (t' ++ lit "]" ++ r') < m)%nat ->
  pair (i ++ [(T, T')]) (i ++ [(T1, T1')]) (many_loop n (array_value_ p)) (many_loop m (array_value_ q)) t (lit "]" ++ r) t' (lit "]" ++ r')
    (fun l l' => Forall2 esay vs l /\ Forall2 esay vs' l' /\ av_ids l = av_ids l').
Notation vpair := (fun v v' => forall t t', denotes v t -> denotes v' t' -> forall n m, (length t < n)%nat -> (length t' < m)%nat -> pair_value (val n) (val m) v v' t t').
Lemma k_elems : forall vs vs', Forall2 (fun v v' => kindred v v' /\ vpair v v') vs vs' -> same_turns vs vs' ->
  forall t t', delems vs t -> delems vs' t' -> forall n m, (length t < n)%nat -> (length t' < m)%nat -> pair_elems (val n) (val m) vs vs' t t'.
Proof.
  intros vs vs' F. induction F as [|v v' vs vs' [KV FV] FVS IH]; intros ST t t' D D' n m L L' i T T' TU.
  - inversion D; subst. inversion D'; subst. exists T, T'. intros x y r r' LX LY s u H. cbn [app] in *. destruct n; [lia|]. destruct m; [lia|].
    rewrite !close_loop; auto; try (intros; apply val_close). cbn. split; auto. eexists. eexists. split; [reflexivity|]. split; [reflexivity|]. repeat split; constructor.
  - apply elems_view in D as (t1 & z & r0 & -> & D1 & Z & D2 & EV). apply elems_view in D' as (t1' & z' & r0' & -> & D1' & Z' & D2' & EV').
    cbn [same_turns] in ST. destruct ST as [ST1 ST].
    assert (TU2 : turns (tag_of v) (tag_of v') vs vs').
    { destruct vs as [|w vs], vs' as [|w' vs']; cbn [turns]; auto. split; [pose proof (tag_some v); pose proof (tag_some v'); tauto|]. intros _. rewrite !tag_kind. exact ST1. }
    pose proof (vhead_solid _ (denotes_head _ _ D1)) as (_ & _ & _ & TN). pose proof (vhead_solid _ (denotes_head _ _ D1')) as (_ & _ & _ & TN').
    repeat rewrite app_length in L; repeat rewrite app_length in L'.
    destruct (IH ST r0 r0' D2 D2' n m ltac:(lia) ltac:(lia) i _ _ TU2) as (T1 & T1' & IH1). exists T1, T1'. intros x y r r' LX LY.
    destruct x as [|x]; [lia|]. destruct y as [|y]; [lia|]. rewrite !(app_assoc _ z), !(app_assoc _ z').
    destruct (delems_head vs r0 r D2) as [S1 N1]. destruct (delems_head vs' r0' r' D2') as [S1' N1'].
    repeat rewrite app_length in LX; repeat rewrite app_length in LY.
    eapply k_loop with (Q := fun a b => skin v v' a.(av_val) b.(av_val)) (QL := fun l l' => Forall2 esay vs l /\ Forall2 esay vs' l' /\ av_ids l = av_ids l') (j := i ++ [(tag_of v, tag_of v')]).
    + destruct t1; [congruence|discriminate].
    + destruct t1'; [congruence|discriminate].
    + unfold array_value_. eapply k_bind; [apply FV; auto; lia|]. intros c d CD. apply k_tail; auto. intros sep nls sep' nls'. apply k_act. intros s u H.
      pose proof (value_kin i T T' s u c d (tag_of v) (tag_of v') sep sep' nls nls' H (skin_kin _ _ _ _ CD KV)) as VS.
      specialize (VS ltac:(apply tag_says, CD) ltac:(apply tag_says, CD) TU).
      destruct (array_value_act c sep nls s) as [[s1 a]| |] eqn:E1, (array_value_act d sep' nls' u) as [[u1 b]| |] eqn:E2; cbn [rsim] in *; try contradiction; auto.
      destruct VS as [H1 [A1 B1]]. split; [exact H1|]. cbn [fst snd] in *. rewrite A1, B1. exact CD.
    + apply IH1; repeat rewrite app_length; (destruct t1; [congruence|]); (destruct t1'; [congruence|]); cbn [length] in *; lia.
    + intros a b l l' (A1 & A2 & A3) (B1 & B2 & B3). repeat split; try (constructor; auto; fail). unfold av_ids in *. cbn [flat_map]. rewrite !ids_app. congruence.
Qed.
Lemma array_cells : forall vs x y, ids (tcells (TArray vs x y)) = av_ids vs.
Proof. reflexivity. Qed.
Lemma k_array : forall p q vs vs' g g' t t', pair_elems p q vs vs' t t' -> gap g -> gap g' -> (forall r, solid (t ++ lit "]" ++ r)) -> (forall r, solid (t' ++ lit "]" ++ r)) ->
  pair_value (val_ p) (val_ q) (VArray vs) (VArray vs') (lit "[" ++ g ++ t ++ lit "]") (lit "[" ++ g' ++ t' ++ lit "]").
Proof.
  intros p q vs vs' g g' t t' B G G' S S' i r r' R R'. unfold val_. apply k_alt.
  set (Q := fun a b => to_val a = Ok (VArray vs) /\ to_val b = Ok (VArray vs') /\ ids (tcells a) = ids (tcells b)).
  eapply k_cell with (Q := Q); [|intros a b n (X1 & X2 & X3); repeat split; auto; unfold subcells; cbn [ids map c_id c_val]; f_equal; exact X3].
  assert (TU : turns ANone ANone vs vs') by (destruct vs, vs'; cbn [turns]; auto; split; [tauto|congruence]).
  destruct (B i ANone ANone TU) as (T1 & T1' & BE).
  assert (BI : pair (i ++ [(ANone, ANone)]) (i ++ [(T1, T1')]) (array_internal_ p) (array_internal_ q) (lit "[" ++ g ++ t ++ lit "]") r (lit "[" ++ g' ++ t' ++ lit "]") r' Q).
  { unfold array_internal_. eapply k_bind; [apply k_tag|]. intros _ _ _.
    eapply k_bind; [apply k_gap; auto; rewrite <- app_assoc; auto|]. intros n1 n1' _.
    eapply k_bind; [unfold array_values_; apply k_many0, BE; lia|]. intros l l' (A1 & A2 & A3).
    eapply (k_bind _ _ _ _ _ _ _ _ _ (fun _ _ => True) _ [] (lit "]") r [] (lit "]") r'); [apply k_gap; try apply (G_ws [] BL_nil); simpl; lia|]. intros n2 n2' _.
    eapply (k_bind _ _ _ _ _ _ _ _ _ (fun _ _ => True) _ (lit "]") [] r (lit "]") [] r'); [apply k_tag|]. intros _ _ _. apply k_ret.
    unfold Q. cbn [to_val]. rewrite (esay_all _ _ A1), (esay_all _ _ A2). repeat split; auto. }
  intros s u H. unfold array_. eapply rs_bind; [apply BI, kn_push_key; eapply kn_set_atypes; [exact H|rewrite (kn_atypes _ _ _ H); unfold vpush; rewrite map_app; reflexivity|rewrite (kn_atypes' _ _ _ H); unfold vpush; rewrite map_app; reflexivity]|].
  intros [s1 r1] [u1 r1'] (H1 & a & b & E1 & E2 & X). cbn [fst snd] in *. subst. cbn. split; [|exists a, b; auto].
  apply kn_pop_key in H1. eapply kn_set_atypes; [exact H1| |].
  - change (p_atypes s1) with (p_atypes (pop_key s1)). rewrite (kn_atypes _ _ _ H1), map_app. apply vpop_snoc.
  - change (p_atypes u1) with (p_atypes (pop_key u1)). rewrite (kn_atypes' _ _ _ H1), map_app. apply vpop_snoc.
Qed.
Lemma k_keyval : forall i p q k w1 w2 w1' w2' v v' t t' r r', pair_value p q v v' t t' -> kindred v v' -> key_name k -> blanks w1 -> blanks w2 -> blanks w1' -> blanks w2' ->
  no_blank (t ++ r) -> no_blank (t' ++ r') -> ends_value r -> ends_value r' ->
  pair i i (keyval_p_ p) (keyval_p_ q) (k ++ (w1 ++ lit "=" ++ w2) ++ t) r (k ++ (w1' ++ lit "=" ++ w2') ++ t') r'
    (fun a b => a.(kv_key) = k /\ b.(kv_key) = k /\ skin v v' a.(kv_val) b.(kv_val)).
Proof.
  intros i p q k w1 w2 w1' w2' v v' t t' r r' B KI K W1 W2 W1' W2' N N' R R'. unfold keyval_p_.
  eapply k_bind.
  { apply k_key; auto; rewrite <- !app_assoc; apply (blanks_app_head (fun c => ~ bare_char c)); auto; unfold bare_char; simpl; lia. }
  intros k1 k2 [-> ->].
  eapply (k_bind _ _ _ _ _ _ _ _ _ (fun _ _ => True)).
  { eapply k_ok; [intros s; rewrite <- !app_assoc; apply keyval_sep_ok; auto|intros s; rewrite <- !app_assoc; apply keyval_sep_ok; auto|exact I]. }
  intros sep sep' _. rewrite <- (app_nil_r t), <- (app_nil_r t'). eapply k_bind; [rewrite !app_nil_l; apply B; auto|]. intros c d CD. apply k_act. intros s u H.
  pose proof (keyval_kin _ s u k sep sep' c d H (skin_kin _ _ _ _ CD KI)) as VS.
  destruct (keyval_act k sep c s) as [[s1 a]| |] eqn:E1, (keyval_act k sep' d u) as [[u1 b]| |] eqn:E2; cbn [rsim] in *; try contradiction; auto.
  destruct VS as [H1 _]. split; [exact H1|]. apply keyval_gives in E1 as [-> _]. apply keyval_gives in E2 as [-> _]. cbn. auto.
Qed.
Definition tk_ids (l : list table_keyval) : list N := ids (flat_map (fun tk => subcells tk.(tk_kv).(kv_val)) l).
Definition pair_fields (p q : P cell) (kvs kvs' : list (str * value)) (t t' : str) : Prop := forall i n m r r', (length (t ++ lit "}" ++ r) < n)%nat -> (length (t' ++ lit "}" ++ r') < m)%nat ->
  pair i i (many_loop n (table_keyval_p_ p)) (many_loop m (table_keyval_p_ q)) t (lit "}" ++ r) t' (lit "}" ++ r')
    (fun l l' => Forall2 fsay kvs l /\ Forall2 fsay kvs' l' /\ tk_ids l = tk_ids l').
Lemma k_fields : forall kvs kvs', Forall2 (fun x y : str * value => fst x = fst y /\ kindred (snd x) (snd y) /\ vpair (snd x) (snd y)) kvs kvs' ->
  forall t t', dfields kvs t -> dfields kvs' t' -> forall n m, (length t < n)%nat -> (length t' < m)%nat -> pair_fields (val n) (val m) kvs kvs' t t'.
Proof.
  intros kvs kvs' F. induction F as [|[k v] [k' v'] kvs kvs' (EK & KV & FV) FVS IH]; intros t t' D D' n m L L' i x y r r' LX LY.
  - inversion D; subst. inversion D'; subst. intros s u H. cbn [app] in *. rewrite !brace_loop; auto. cbn. split; auto. eexists. eexists. split; [reflexivity|]. split; [reflexivity|]. repeat split; constructor.
  - cbn [fst snd] in *. subst k'.
    apply fields_view in D as (w1 & w2 & t1 & z & r0 & -> & K & W1 & W2 & D1 & Z & D2 & EV). apply fields_view in D' as (w1' & w2' & t1' & z' & r0' & -> & _ & W1' & W2' & D1' & Z' & D2' & EV').
    destruct x as [|x]; [lia|]. destruct y as [|y]; [lia|]. rewrite !(app_assoc _ z), !(app_assoc _ z').
    destruct (dfields_head kvs r0 r D2) as (S1 & N1 & _). destruct (dfields_head kvs' r0' r' D2') as (S1' & N1' & _). pose proof (key_ne k K) as KN.
    repeat rewrite app_length in L; repeat rewrite app_length in L'; repeat rewrite app_length in LX; repeat rewrite app_length in LY.
    eapply k_loop with (Q := fun a b => a.(tk_kv).(kv_key) = k /\ b.(tk_kv).(kv_key) = k /\ skin v v' a.(tk_kv).(kv_val) b.(tk_kv).(kv_val))
      (QL := fun l l' => Forall2 fsay kvs l /\ Forall2 fsay kvs' l' /\ tk_ids l = tk_ids l').
    + destruct k; [congruence|discriminate].
    + destruct k; [congruence|discriminate].
    + unfold table_keyval_p_. eapply k_bind.
      { apply k_keyval with (v := v) (v' := v'); auto; [apply FV; auto; lia| |].
        - destruct (vhead_solid _ (vhead_app _ (z ++ r0 ++ lit "}" ++ r) (denotes_head _ _ D1))) as (_ & _ & A & _). auto.
        - destruct (vhead_solid _ (vhead_app _ (z' ++ r0' ++ lit "}" ++ r') (denotes_head _ _ D1'))) as (_ & _ & A & _). auto. }
      intros a b AB. apply k_tail; auto. intros sep nls sep' nls'. apply k_ret. exact AB.
    + apply IH; auto; try lia; repeat rewrite app_length; (destruct k; [congruence|]); cbn [length] in *; lia.
    + intros a b l l' (A1 & A2 & A3 & A4 & A5) (B1 & B2 & B3). repeat split; try (constructor; auto; split; auto; fail). unfold tk_ids in *. cbn [flat_map]. rewrite !ids_app. congruence.
Qed.
Lemma k_inline : forall p q kvs kvs' w w' t t', pair_fields p q kvs kvs' t t' -> blanks w -> blanks w' -> (forall r, no_blank (t ++ lit "}" ++ r)) -> (forall r, no_blank (t' ++ lit "}" ++ r)) ->
  pair_value (val_ p) (val_ q) (VInlineTable kvs) (VInlineTable kvs') (lit "{" ++ w ++ t ++ lit "}") (lit "{" ++ w' ++ t' ++ lit "}").
Proof.
  intros p q kvs kvs' w w' t t' B W W' S S' i r r' R R'. unfold val_. apply k_skip; [intros s; apply arr_err; simpl; lia..|]. apply k_alt.
  eapply k_cell with (Q := fun a b => to_val a = Ok (VInlineTable kvs) /\ to_val b = Ok (VInlineTable kvs') /\ ids (tcells a) = ids (tcells b));
    [|intros a b n (X1 & X2 & X3); repeat split; auto; unfold subcells; cbn [ids map c_id c_val]; f_equal; exact X3].
  unfold inline_table_. eapply k_bind; [apply k_tag|]. intros _ _ _. eapply k_bind; [apply k_ws; auto; rewrite <- app_assoc; auto|]. intros x1 x1' _.
  eapply k_bind; [apply k_opt, k_complete; unfold inline_table_keyvals_; apply k_many0, B; lia|]. intros o o' (l & l' & -> & -> & A1 & A2 & A3).
  eapply (k_bind _ _ _ _ _ _ _ _ _ (fun _ _ => True) _ [] (lit "}") r [] (lit "}") r'); [apply k_ws; try constructor; simpl; lia|]. intros x2 x2' _.
  eapply (k_bind _ _ _ _ _ _ _ _ _ (fun _ _ => True) _ (lit "}") [] r (lit "}") [] r'); [apply k_tag|]. intros _ _ _. apply k_ret. repeat split; try apply fsay_all; auto.
Qed.
Lemma k_value : forall v v', kindred v v' -> vpair v v'.
Proof.
  induction v as [| | | | |vs IH|kvs IH] using value_ind'; intros v' KI.
  1-5: inversion KI as [a1 b1 SA SB SD| |]; subst; intros x x' D D' n m L L'; (destruct n; [lia|]); (destruct m; [lia|]); cbn [val]; apply k_scalar; auto.
  - intros t t' D D' n m L L'. destruct n; [lia|]. destruct m; [lia|]. inversion KI as [a1 b1 SA SB SD|l l' F ST|]; subst; [destruct SA|].
    inversion D as [v0 t0 S| |vs0 g t0 G E X1 X2|]; subst; [inversion S|].
    inversion D' as [v0 t0' S| |vs0 g' t0' G' E' X1 X2|]; subst; [inversion S|]. repeat rewrite app_length in L; repeat rewrite app_length in L'. simpl in L, L'. cbn [val].
    apply k_array; auto; [|intros r; eapply delems_head; eauto..]. apply k_elems; auto; try lia.
    clear - F IH. induction F as [|a b vs l' K F IHF]; constructor; inversion IH; subst; auto.
  - intros t t' D D' n m L L'. destruct n; [lia|]. destruct m; [lia|]. inversion KI as [a1 b1 SA SB SD| |l l' F]; subst; [destruct SA|].
    inversion D as [v0 t0 S| | |vs0 g t0 G E X1 X2]; subst; [inversion S|].
    inversion D' as [v0 t0' S| | |vs0 g' t0' G' E' X1 X2]; subst; [inversion S|]. repeat rewrite app_length in L; repeat rewrite app_length in L'. simpl in L, L'. cbn [val].
    apply k_inline; auto; [|intros r; eapply dfields_head; eauto..]. apply k_fields; auto; try lia.
    clear - F IH. induction F as [|a b vs l' [N K] F IHF]; constructor; inversion IH; subst; auto.
Qed.

(** ** Lines *)
Lemma k_val_p : forall v v' t t', kindred v v' -> denotes v t -> denotes v' t' -> pair_value val_p val_p v v' t t'.
Proof. intros v v' t t' K D D' i r r' R R' s u H. unfold val_p. apply (k_value v v' K t t' D D'); auto; rewrite app_length; lia. Qed.
Lemma push_keys_kin : forall i ks s u, kin i s u -> kin i (fold_left (fun s k => push_key (KStr k) s) ks s) (fold_left (fun s k => push_key (KStr k) s) ks u).
Proof. induction ks as [|k ks IH]; intros s u H; [exact H|]. cbn [fold_left]. apply IH, kn_push_key; auto. Qed.
Lemma k_subkeys : forall i m m' w w' r r', mores_ok m -> mores_ok m' -> map snd m = map snd m' -> blanks w -> blanks w' ->
  pair i i table_subkeys table_subkeys (concat (map more_text m)) (w ++ lit "]" ++ r) (concat (map more_text m')) (w' ++ lit "]" ++ r') (fun l l' => map wk_key l = map wk_key l').
Proof.
  intros i m m' w w' r r' F F' E W W' s u H. unfold table_subkeys, many0.
  destruct (subkeys_loop m s (S (length (concat (map more_text m) ++ w ++ lit "]" ++ r))) w r F W) as (ks & E1 & N1); [lia|].
  destruct (subkeys_loop m' u (S (length (concat (map more_text m') ++ w' ++ lit "]" ++ r'))) w' r' F' W') as (ks' & E2 & N2); [lia|].
  rewrite E1, E2. cbn. split; [rewrite E; apply push_keys_kin; auto|]. exists ks, ks'. repeat split; auto. congruence.
Qed.
Lemma k_std : forall i w1 n m w2 w1' m' w2' r r', blanks w1 -> blanks w1' -> key_name n -> mores_ok m -> mores_ok m' -> map snd m = map snd m' -> blanks w2 -> blanks w2' ->
  pair i i table_p table_p (lit "[" ++ w1 ++ n ++ concat (map more_text m) ++ w2 ++ lit "]") r (lit "[" ++ w1' ++ n ++ concat (map more_text m') ++ w2' ++ lit "]") r' (fun _ _ => True).
Proof.
  intros i w1 n m w2 w1' m' w2' r r' W1 W1' K F F' E W2 W2'. unfold table_p. apply k_skip; [intros s; rewrite <- !app_assoc; apply not_double; auto..|].
  apply k_complete. unfold std_table. eapply k_bind; [apply k_tag|]. intros _ _ _.
  eapply k_bind; [apply k_ws; auto; rewrite <- ?app_assoc; apply key_no_blank; auto|]. intros x1 x1' _.
  eapply k_bind; [apply k_key; auto; rewrite <- ?app_assoc; apply more_stop; auto|]. intros k1 k1' [-> ->].
  eapply k_bind; [rewrite <- !app_assoc; apply k_subkeys; auto|]. intros ks ks' KS.
  eapply k_bind; [apply k_ws; auto; simpl; lia|]. intros x2 x2' _. eapply (k_bind _ _ _ _ _ _ _ _ _ (fun _ _ => True) _ (lit "]") [] r (lit "]") [] r'); [apply k_tag|]. intros _ _ _.
  apply k_act. intros s u H. apply std_kin; auto.
Qed.
Lemma k_arr : forall i w1 n m w2 w1' m' w2' r r', blanks w1 -> blanks w1' -> key_name n -> mores_ok m -> mores_ok m' -> map snd m = map snd m' -> blanks w2 -> blanks w2' ->
  pair i i table_p table_p (lit "[[" ++ w1 ++ n ++ concat (map more_text m) ++ w2 ++ lit "]]") r (lit "[[" ++ w1' ++ n ++ concat (map more_text m') ++ w2' ++ lit "]]") r' (fun _ _ => True).
Proof.
  intros i w1 n m w2 w1' m' w2' r r' W1 W1' K F F' E W2 W2'. unfold table_p. apply k_alt, k_complete. unfold array_table. eapply k_bind; [apply k_tag|]. intros _ _ _.
  eapply k_bind; [apply k_ws; auto; rewrite <- ?app_assoc; apply key_no_blank; auto|]. intros x1 x1' _.
  change (lit "]]") with (lit "]" ++ lit "]") at 1 2.
  eapply k_bind; [apply k_key; auto; rewrite <- ?app_assoc; apply more_stop; auto|]. intros k1 k1' [-> ->].
  eapply k_bind; [rewrite <- !app_assoc; apply k_subkeys; auto|]. intros ks ks' KS.
  eapply k_bind; [apply k_ws; auto; simpl; lia|]. intros x2 x2' _. eapply (k_bind _ _ _ _ _ _ _ _ _ (fun _ _ => True) _ (lit "]]") [] r (lit "]]") [] r'); [apply k_tag|]. intros _ _ _.
  apply k_act. intros s u H. apply arr_kin; auto.
Qed.
Lemma k_end : forall i w c w' c' r r' A (f g : str -> option str -> A) (Q : A -> A -> Prop), blanks w -> blanks w' -> com_ok c -> com_ok c' -> line_start r -> line_start r' -> Q (f w c) (g w' c') ->
  pair i i (bind ws (fun w2 => bind (opt (complete comment)) (fun c => ret (f w2 c)))) (bind ws (fun w2 => bind (opt (complete comment)) (fun c => ret (g w2 c))))
    (w ++ com_text c) r (w' ++ com_text c') r' Q.
Proof.
  assert (X : forall w c r A (f : str -> option str -> A) s, blanks w -> com_ok c -> line_start r ->
    bind ws (fun w2 => bind (opt (complete comment)) (fun c => ret (f w2 c))) s ((w ++ com_text c) ++ r) = Ok (s, Done r (f w c))).
  { intros w c r A f s W C R. rewrite <- app_assoc. rewrite (bind_ok _ _ _ _ _ _ _ (ws_ok w _ s W (com_no_blank c r R))).
    rewrite (bind_ok _ _ _ _ _ _ _ (opt_comment c r s C R)). reflexivity. }
  intros i w c w' c' r r' A f g Q W W' C C' R R' QQ. eapply k_ok; [intros s; apply X; auto|intros s; apply X; auto|exact QQ].
Qed.
Definition eids (e e' : expression) : Prop := ids (ex_cells e) = ids (ex_cells e').
Lemma blank_cells : forall s w c r e, blanks w -> com_ok c -> line_start r -> expression_p s ((w ++ com_text c) ++ r) = Ok (s, Done r e) -> ex_cells e = [].
Proof. intros s w c r e W C R X. pose proof (istep_blank s w c (conj W C) r R) as E. cbn [item_text item_expr] in E. rewrite X in E. injection E as ->. reflexivity. Qed.
Lemma k_line : forall i d d' r r', formed d -> formed d' -> Forall2 kindred_item (content d) (content d') -> line_start r -> line_start r' ->
  pair i i expression_p expression_p (tline_text d) r (tline_text d') r' eids.
Proof.
  intros i d d' r r' F F' E R R'.
  destruct d as [[w c|w0 k w1 w2 v t w3 c|w0 w1 n m w2 w3 c]|w0 w1 n m w2 w3 c], d' as [[w' c'|w0' k' w1' w2' v' t' w3' c'|w0' w1' n' m' w2' w3' c']|w0' w1' n' m' w2' w3' c'];
    cbn [content] in E; inversion E as [|? ? ? ? E1 E0]; subst; clear E; cbn [kindred_item] in *; try discriminate E1; cbn [formed tline_ok hline_ok tline_text hline_text] in *.
  - intros s u H. destruct F as [W C], F' as [W' C']. destruct (blank_line s w c r W C R) as (e & E1). destruct (blank_line u w' c' r' W' C' R') as (e' & E2).
    pose proof (blank_cells s w c r e W C R E1) as X1. pose proof (blank_cells u w' c' r' e' W' C' R' E2) as X2.
    rewrite E1, E2. cbn. split; auto. exists e, e'. unfold eids. rewrite X1, X2. auto.
  - destruct E1 as [<- KI]. destruct F as (W0 & K & W1 & W2 & D & W3 & C), F' as (W0' & _ & W1' & W2' & D' & W3' & C').
    pose proof (vhead_solid t (denotes_head v t D)) as (_ & _ & NB & TN). pose proof (vhead_solid t' (denotes_head v' t' D')) as (_ & _ & NB' & TN').
    unfold expression_p. apply k_skip.
    { intros s. rewrite <- app_assoc. apply table_comment_err; auto; apply key_head in K as (c0 & u & -> & C0); unfold bare_char in C0; simpl; lia. }
    { intros s. rewrite <- app_assoc. apply table_comment_err; auto; apply key_head in K as (c0 & u & -> & C0); unfold bare_char in C0; simpl; lia. }
    apply k_alt, k_complete. unfold keyval_comment. eapply k_bind; [apply k_ws; auto; rewrite <- ?app_assoc; apply key_no_blank; auto|]. intros x0 x0' _.
    replace (k ++ w1 ++ lit "=" ++ w2 ++ t ++ w3 ++ com_text c) with ((k ++ (w1 ++ lit "=" ++ w2) ++ t) ++ w3 ++ com_text c) by (rewrite <- !app_assoc; reflexivity).
    replace (k ++ w1' ++ lit "=" ++ w2' ++ t' ++ w3' ++ com_text c') with ((k ++ (w1' ++ lit "=" ++ w2') ++ t') ++ w3' ++ com_text c') by (rewrite <- !app_assoc; reflexivity).
    eapply k_bind.
    { apply k_keyval with (v := v) (v' := v'); auto; [apply k_val_p; auto|destruct t; [congruence|exact NB]|destruct t'; [congruence|exact NB']| |]; rewrite <- app_assoc; apply ends_after; auto. }
    intros kv kv' (_ & _ & _ & _ & X). apply k_end; auto.
  - unfold head_path in E1. injection E1 as <- E. destruct F as (W0 & W1 & K & F & W2 & W3 & C), F' as (W0' & W1' & _ & F' & W2' & W3' & C').
    unfold expression_p. apply k_alt, k_complete. unfold table_comment. eapply k_bind; [apply k_ws; auto; simpl; lia|]. intros x0 x0' _.
    replace (lit "[" ++ w1 ++ n ++ concat (map more_text m) ++ w2 ++ lit "]" ++ w3 ++ com_text c) with
      ((lit "[" ++ w1 ++ n ++ concat (map more_text m) ++ w2 ++ lit "]") ++ w3 ++ com_text c) by (rewrite <- !app_assoc; reflexivity).
    replace (lit "[" ++ w1' ++ n ++ concat (map more_text m') ++ w2' ++ lit "]" ++ w3' ++ com_text c') with
      ((lit "[" ++ w1' ++ n ++ concat (map more_text m') ++ w2' ++ lit "]") ++ w3' ++ com_text c') by (rewrite <- !app_assoc; reflexivity).
    eapply k_bind; [apply k_std; auto|]. intros x x' _. apply k_end; auto. reflexivity.
  - unfold head_path in E1. injection E1 as <- E. destruct F as (W0 & W1 & K & F & W2 & W3 & C), F' as (W0' & W1' & _ & F' & W2' & W3' & C').
    unfold expression_p. apply k_alt, k_complete. unfold table_comment. eapply k_bind; [apply k_ws; auto; simpl; lia|]. intros x0 x0' _.
    replace (lit "[[" ++ w1 ++ n ++ concat (map more_text m) ++ w2 ++ lit "]]" ++ w3 ++ com_text c) with
      ((lit "[[" ++ w1 ++ n ++ concat (map more_text m) ++ w2 ++ lit "]]") ++ w3 ++ com_text c) by (rewrite <- !app_assoc; reflexivity).
    replace (lit "[[" ++ w1' ++ n ++ concat (map more_text m') ++ w2' ++ lit "]]" ++ w3' ++ com_text c') with
      ((lit "[[" ++ w1' ++ n ++ concat (map more_text m') ++ w2' ++ lit "]]") ++ w3' ++ com_text c') by (rewrite <- !app_assoc; reflexivity).
    eapply k_bind; [apply k_arr; auto|]. intros x x' _. apply k_end; auto. reflexivity.
Qed.

(** ** Documents *)
Definition nids (l l' : list nl_expression) : Prop := ids (toml_cells l) = ids (toml_cells l').
Definition neids (e e' : nl_expression) : Prop := eids e.(ne_expr) e'.(ne_expr).
Lemma nids_cons : forall a b l l', neids a b -> nids l l' -> nids (a :: l) (b :: l').
Proof. intros a b l l' A B. unfold nids, neids, eids, toml_cells in *. cbn [flat_map]. rewrite !ids_app. congruence. Qed.
Lemma k_left : forall i (p : P nl_expression) q t x r t' r' n, t <> [] ->
  (forall s, exists s1 a, p s (t ++ x ++ r) = Ok (s1, Done (x ++ r) a) /\ ex_cells a.(ne_expr) = [] /\ forall u, kin i s u -> kin i s1 u) ->
  pair i i (many_loop n p) q x r t' r' nids -> pair i i (many_loop (S n) p) q (t ++ x) r t' r' nids.
Proof.
  intros i p q t x r t' r' n N E B s u H. rewrite <- !app_assoc. cbn [many_loop]. destruct (E s) as (s1 & a & E1 & EX & T). specialize (B s1 u (T u H)).
  destruct (t ++ x ++ r) as [|c0 i0] eqn:I1; [destruct t; [congruence|discriminate]|]. rewrite <- I1 in *. rewrite E1. cbn [rbind].
  assert (NE : Nat.eqb (length (x ++ r)) (length (t ++ x ++ r)) = false) by (apply Nat.eqb_neq; rewrite (app_length t); destruct t; [congruence|]; cbn [length]; lia).
  rewrite NE. destruct (many_loop n p s1 (x ++ r)) as [[s2 r2]| |], (q u (t' ++ r')) as [[u2 r2']| |]; cbn [rsim rbind] in *; try contradiction; auto.
  destruct B as (B & l & l' & E2 & E3 & X). cbn [fst snd] in *. subst. split; auto. exists (a :: l), l'. repeat split; auto. unfold nids, toml_cells in *. cbn [flat_map]. rewrite EX. exact X.
Qed.
Lemma k_right : forall i (p : P nl_expression) q t x r t' r' n, t <> [] ->
  (forall s, exists s1 a, p s (t ++ x ++ r) = Ok (s1, Done (x ++ r) a) /\ ex_cells a.(ne_expr) = [] /\ forall u, kin i u s -> kin i u s1) ->
  pair i i q (many_loop n p) t' r' x r nids -> pair i i q (many_loop (S n) p) t' r' (t ++ x) r nids.
Proof.
  intros i p q t x r t' r' n N E B u s H. rewrite <- !app_assoc. cbn [many_loop]. destruct (E s) as (s1 & a & E1 & EX & T). specialize (B u s1 (T u H)).
  destruct (t ++ x ++ r) as [|c0 i0] eqn:I1; [destruct t; [congruence|discriminate]|]. rewrite <- I1 in *. rewrite E1. cbn [rbind].
  assert (NE : Nat.eqb (length (x ++ r)) (length (t ++ x ++ r)) = false) by (apply Nat.eqb_neq; rewrite (app_length t); destruct t; [congruence|]; cbn [length]; lia).
  rewrite NE. destruct (many_loop n p s1 (x ++ r)) as [[s2 r2]| |], (q u (t' ++ r')) as [[u2 r2']| |]; cbn [rsim rbind] in *; try contradiction; auto.
  destruct B as (B & l & l' & E2 & E3 & X). cbn [fst snd] in *. subst. split; auto. exists l, (a :: l'). repeat split; auto. unfold nids, toml_cells in *. cbn [flat_map]. rewrite EX. exact X.
Qed.
Lemma k_newline : forall i nl nl' r r', line_end nl -> line_end nl' -> pair i i newline newline nl r nl' r' (fun _ _ => True).
Proof. intros i nl nl' r r' N N' s u H. rewrite !newline_ok by auto. cbn. split; [apply kn_set_line; auto|]. exists nl, nl'. auto. Qed.
Lemma k_nl : forall i nl d nl' d' r r', line_end nl -> line_end nl' -> formed d -> formed d' -> Forall2 kindred_item (content d) (content d') -> line_start r -> line_start r' ->
  pair i i nl_expression_p nl_expression_p (nl ++ tline_text d) r (nl' ++ tline_text d') r' neids.
Proof.
  intros i nl d nl' d' r r' N N' F F' E R R'. unfold nl_expression_p. eapply k_bind; [apply k_newline; auto|]. intros x x' _.
  rewrite <- (app_nil_r (tline_text d)), <- (app_nil_r (tline_text d')). eapply k_bind; [rewrite !app_nil_l; apply k_line; auto|]. intros e e' X. apply k_ret. exact X.
Qed.
Lemma blank_nl_kin : forall nl w c l, line_end nl -> blanks w -> com_ok c -> lines_ok l -> forall s, exists s1 a,
  nl_expression_p s ((nl ++ w ++ com_text c) ++ tdoc_text l ++ []) = Ok (s1, Done (tdoc_text l ++ []) a) /\ ex_cells a.(ne_expr) = [] /\ s1 = add_lines 1 s.
Proof.
  intros nl w c l N W C F s. rewrite app_nil_r. unfold nl_expression_p. rewrite <- app_assoc. rewrite (bind_ok _ _ _ _ _ _ _ (newline_ok nl _ s N)).
  destruct (blank_line (add_lines 1 s) w c (tdoc_text l) W C (tdoc_start l F)) as (e & E). rewrite (bind_ok _ _ _ _ _ _ _ E). apply blank_cells in E; auto using tdoc_start. cbn. eexists. eexists. split; [reflexivity|]. split; auto.
Qed.
Lemma kn_lines : forall i s u n m, kin i s u -> kin i (add_lines n s) (add_lines m u).
Proof. intros. apply kn_set_line; auto. Qed.
Lemma kn_lines_l : forall i s u n, kin i s u -> kin i (add_lines n s) u.
Proof. intros i s u n [T1 T2 T3 T4 T5 T6 T7 T8 T9 T10 T11]. constructor; auto. Qed.
Lemma kn_lines_r : forall i s u n, kin i s u -> kin i s (add_lines n u).
Proof. intros i s u n [T1 T2 T3 T4 T5 T6 T7 T8 T9 T10 T11]. constructor; auto. Qed.
Lemma k_lines : forall i k l l', (length l + length l' <= k)%nat -> lines_ok l -> lines_ok l' -> Forall2 kindred_item (contents l) (contents l') ->
  forall n m, (length (tdoc_text l) < n)%nat -> (length (tdoc_text l') < m)%nat ->
  pair i i (many_loop n nl_expression_p) (many_loop m nl_expression_p) (tdoc_text l) [] (tdoc_text l') [] nids.
Proof.
  intros i. induction k as [|k IH]; intros l l' LK F F' E n m LN LM.
  - destruct l; [|cbn in LK; lia]. destruct l'; [|cbn in LK; lia]. destruct n; [lia|]. destruct m; [lia|]. intros s u H. cbn. split; auto. exists [], []. repeat split; auto.
  - assert (LEN : forall nl d (l : list (str * tline)) n, line_end nl -> (length (tdoc_text ((nl, d) :: l)) < S n)%nat -> (length (tdoc_text l) < n)%nat).
    { clear. intros nl d l n N L. change (tdoc_text ((nl, d) :: l)) with ((nl ++ tline_text d) ++ tdoc_text l) in L. rewrite !app_length in L. destruct N as [->| ->]; cbn [length] in L; lia. }
    destruct l as [|[nl d] l].
    + destruct l' as [|[nl' d'] l'].
      { destruct n; [lia|]. destruct m; [lia|]. intros s u H. cbn. split; auto. exists [], []. repeat split; auto. }
      change (contents ((nl', d') :: l')) with (content d' ++ contents l') in E. assert (E0 : content d' ++ contents l' = []) by (inversion E; auto). destruct (app_eq_nil _ _ E0) as [E1 E2].
      inversion F' as [|? ? [N' FD'] FL']; subst. cbn [fst snd] in *. destruct (blank_is d' E1) as (w & c & ->). destruct FD' as [W C]. destruct m; [lia|].
      change (tdoc_text ((nl', TPlain (HBlank w c)) :: l')) with ((nl' ++ w ++ com_text c) ++ tdoc_text l'). apply k_right; [apply nl_ne; auto| |].
      { intros s. destruct (blank_nl_kin nl' w c l' N' W C FL' s) as (s1 & a & X & Y & ->). exists (add_lines 1 s), a. split; [exact X|]. split; [exact Y|]. intros u T. apply kn_lines_r; auto. }
      apply IH; auto; [cbn in *; lia|]. first [exact (LEN _ _ _ _ N LN)|exact (LEN _ _ _ _ N' LM)].
    + inversion F as [|? ? [N FD] FL]; subst. cbn [fst snd] in *. destruct n; [lia|].
      change (contents ((nl, d) :: l)) with (content d ++ contents l) in E.
      destruct (content d) as [|it its] eqn:CD.
      { destruct (blank_is d CD) as (w & c & ->). destruct FD as [W C].
        change (tdoc_text ((nl, TPlain (HBlank w c)) :: l)) with ((nl ++ w ++ com_text c) ++ tdoc_text l). apply k_left; [apply nl_ne; auto| |].
        { intros s. destruct (blank_nl_kin nl w c l N W C FL s) as (s1 & a & X & Y & ->). exists (add_lines 1 s), a. split; [exact X|]. split; [exact Y|]. intros u T. apply kn_lines_l; auto. }
        apply IH; auto; [cbn in *; lia|]. first [exact (LEN _ _ _ _ N LN)|exact (LEN _ _ _ _ N' LM)]. }
      destruct l' as [|[nl' d'] l']; [inversion E|]. inversion F' as [|? ? [N' FD'] FL']; subst. cbn [fst snd] in *. destruct m; [lia|].
      change (contents ((nl', d') :: l')) with (content d' ++ contents l') in E. destruct (content d') as [|it' its'] eqn:CD'.
      { destruct (blank_is d' CD') as (w & c & ->). destruct FD' as [W C].
        change (tdoc_text ((nl', TPlain (HBlank w c)) :: l')) with ((nl' ++ w ++ com_text c) ++ tdoc_text l'). apply k_right; [apply nl_ne; auto| |].
        { intros s. destruct (blank_nl_kin nl' w c l' N' W C FL' s) as (s1 & a & X & Y & ->). exists (add_lines 1 s), a. split; [exact X|]. split; [exact Y|]. intros u T. apply kn_lines_r; auto. }
        apply IH; auto; [cbn in *; lia| |first [exact (LEN _ _ _ _ N LN)|exact (LEN _ _ _ _ N' LM)]]. change (contents ((nl, d) :: l)) with (content d ++ contents l). rewrite CD. exact E. }
      assert (its = [] /\ its' = []) as [-> ->].
      { clear - CD CD'. destruct d as [[]|]; inversion CD; destruct d' as [[]|]; inversion CD'; auto. }
      cbn [app] in E. inversion E as [|? ? ? ? E1 E2]; subst.
      change (tdoc_text ((nl, d) :: l)) with ((nl ++ tline_text d) ++ tdoc_text l). change (tdoc_text ((nl', d') :: l')) with ((nl' ++ tline_text d') ++ tdoc_text l').
      eapply k_loop with (Q := neids) (QL := nids); [apply nl_ne; auto|apply nl_ne; auto| |apply IH; auto; [cbn in *; lia|first [exact (LEN _ _ _ _ N LN)|exact (LEN _ _ _ _ N' LM)]|first [exact (LEN _ _ _ _ N LN)|exact (LEN _ _ _ _ N' LM)]]|intros; apply nids_cons; auto].
      rewrite !app_nil_r. apply k_nl; auto; [rewrite CD, CD'; constructor; auto|apply tdoc_start; auto..].
Qed.

Lemma f2_comp : forall A B C (R : A -> B -> Prop) (S : B -> C -> Prop) (T : A -> C -> Prop), (forall a b c, R a b -> S b c -> T a c) -> forall l1 l2 l3, Forall2 R l1 l2 -> Forall2 S l2 l3 -> Forall2 T l1 l3.
Proof. intros A B C R S T X l1 l2 l3 H. revert l3. induction H; intros l3 K; inversion K; subst; constructor; eauto. Qed.
Lemma turns_sym : forall l l', same_turns l l' -> same_turns l' l.
Proof. induction l as [|a l IH]; intros [|a' l'] H; cbn [same_turns] in *; auto. destruct H as [A B]. split; auto. destruct l, l'; auto. tauto. Qed.
Lemma turns_trans : forall l1 l2 l3, length l1 = length l2 -> length l2 = length l3 -> same_turns l1 l2 -> same_turns l2 l3 -> same_turns l1 l3.
Proof.
  induction l1 as [|a l IH]; intros [|a' l'] [|a'' l''] L1 L2 H K; cbn [same_turns length] in *; auto; try discriminate. destruct H as [A B], K as [C D]. injection L1 as L1. injection L2 as L2. split; [|exact (IH l' l'' L1 L2 B D)].
  destruct l, l', l''; auto; try discriminate. tauto.
Qed.
Lemma kindred_sym : forall v v', kindred v v' -> kindred v' v.
Proof.
  induction v as [| | | | |vs IH|kvs IH] using value_ind'; intros v' KI; inversion KI as [a1 b1 SA SB SD|l l' F ST|l l' F]; subst; try (apply Ki_scalar; auto; fail); try contradiction SA.
  - apply Ki_array; [|apply turns_sym; auto]. clear - F IH. induction F; constructor; inversion IH; subst; auto.
  - apply Ki_table. clear - F IH. induction F as [|x y l l' [X1 X2] F IHF]; constructor; inversion IH; subst; auto.
Qed.
Lemma kindred_trans : forall v v' v'', kindred v v' -> kindred v' v'' -> kindred v v''.
Proof.
  induction v as [| | | | |vs IH|kvs IH] using value_ind'; intros v' v'' KI KJ; inversion KI as [a1 b1 SA SB SD|l l' F ST|l l' F]; subst; try contradiction SA.
  1-5: inversion KJ as [a2 b2 SA2 SB2 SD2|l l' F ST|l l' F]; subst; try contradiction SB; apply Ki_scalar; auto; congruence.
  - inversion KJ as [a2 b2 SA2 SB2 SD2|l l2 F2 ST2|l l2 F2]; subst; [contradiction SA2|]. apply Ki_array.
    + clear - F F2 IH. revert l2 F2. induction F; intros l2 F2; inversion F2; subst; constructor; inversion IH; subst; eauto.
    + eapply turns_trans; [eapply f2_len; eauto|eapply f2_len; eauto|auto|auto].
  - inversion KJ as [a2 b2 SA2 SB2 SD2|l l2 F2 ST2|l l2 F2]; subst; [contradiction SA2|]. apply Ki_table.
    clear - F F2 IH. revert l2 F2. induction F as [|x y l l' [X1 X2] F IHF]; intros l2 F2; inversion F2 as [|? ? ? ? [Y1 Y2] ?]; subst; constructor; inversion IH; subst; eauto. split; [congruence|eauto].
Qed.
Lemma ckin_sym : forall c d, ckin c d -> ckin d c.
Proof. intros c d [I [->|(v & v' & A & B & K)]]; split; auto. right. exists v', v. auto using kindred_sym. Qed.
Lemma ckin_trans : forall a b c, ckin a b -> ckin b c -> ckin a c.
Proof.
  intros a b c [I [->|(v & v' & A & B & K)]] [J [->|(w & w' & C & D & L)]]; split; auto; try congruence; right; [exists w, w'; auto|exists v, v'; auto|].
  exists v, w'. split; auto. split; auto. assert (v' = w) by congruence. subst. eapply kindred_trans; eauto.
Qed.
Lemma hkin_sym : forall a b, hkin a b -> hkin b a.
Proof. intros a b []. split; auto. eapply orel_sym; eauto. apply ckin_sym. Qed.
Lemma hkin_trans : forall a b c, hkin a b -> hkin b c -> hkin a c.
Proof. intros a b c [] []. split; [|congruence]. eapply orel_trans; eauto. apply ckin_trans. Qed.
Notation diag s := (map (fun a => (a, a)) (p_atypes s)).
Lemma kin_sym : forall a s t, kin (map (fun a => (a, a)) a) s t -> kin (map (fun a => (a, a)) a) t s.
Proof.
  intros a s t [T1 T2 T3 T4 T5 T6 T7 T8 T9 T10 T11]. constructor; auto.
  - intros k. eapply orel_sym; [apply hkin_sym|auto].
  - unfold same_errors in *. auto.
  - eapply f2_sym; [apply ttsame_sym|auto].
  - eapply orel_sym; [apply ttsame_sym|auto].
  - rewrite map_map in *. auto.
  - rewrite map_map in *. auto.
Qed.
Lemma kin_trans : forall a s t u, kin (map (fun a => (a, a)) a) s t -> kin (map (fun a => (a, a)) a) t u -> kin (map (fun a => (a, a)) a) s u.
Proof.
  intros a s t u [] []. constructor; auto; try congruence.
  - intros k. eapply orel_trans; [apply hkin_trans|eauto|eauto].
  - eapply f2_trans; [apply ttsame_trans|eauto|eauto].
  - eapply orel_trans; [apply ttsame_trans|eauto|eauto].
Qed.
Lemma item_refl : forall a, kindred_item a a.
Proof. intros []; cbn; auto using kindred_refl. Qed.
Lemma items_refl : forall l, Forall2 kindred_item l l.
Proof. induction l; constructor; auto using item_refl. Qed.
Lemma k_first : forall i l n, formed_doc l -> (length ([10%N] ++ tdoc_text l) < n)%nat -> pair i i toml_p (many_loop n nl_expression_p) (tdoc_text l) [] ([10%N] ++ tdoc_text l) [] nids.
Proof.
  intros i [|[nl d] l] n F L; [destruct F|]. destruct F as (-> & FD & F). destruct n; [lia|]. change (tdoc_text (([], d) :: l)) with (tline_text d ++ tdoc_text l) in *.
  intros s u H. rewrite <- !app_assoc. cbn [many_loop]. set (q := many_loop n nl_expression_p). change ([10%N] ++ tline_text d ++ tdoc_text l ++ []) with (10 :: tline_text d ++ tdoc_text l ++ []). cbv iota.
  change (10 :: tline_text d ++ tdoc_text l ++ []) with ([10%N] ++ tline_text d ++ tdoc_text l ++ []).
  unfold toml_p, nl_expression_p, bind at 1. rewrite (bind_ok _ _ _ _ _ _ _ (newline_ok [10] _ u (or_introl eq_refl))). unfold bind at 2.
  assert (LS : line_start (tdoc_text l ++ [])) by (rewrite app_nil_r; apply tdoc_start; auto).
  pose proof (k_line i d d (tdoc_text l ++ []) (tdoc_text l ++ []) FD FD (items_refl _) LS LS s (add_lines 1 u)) as B.
  specialize (B (kn_lines_r _ _ _ _ H)).
  destruct (expression_p s _) as [[s1 r1]| |], (expression_p (add_lines 1 u) _) as [[u1 r1']| |]; cbn [rsim rbind] in *; try contradiction; auto.
  destruct B as (B & e & e' & E1 & E2 & XE). cbn [fst snd] in *. subst r1 r1'. cbn [ret rbind].
  assert (NE : Nat.eqb (length (tdoc_text l ++ [])) (length ([10%N] ++ tline_text d ++ tdoc_text l ++ [])) = false) by (apply Nat.eqb_neq; rewrite !app_length; cbn [length]; lia).
  rewrite NE. unfold bind, nl_expressions, many0. set (q' := many_loop (S (length (tdoc_text l ++ []))) nl_expression_p).
  assert (BL : pair i i q' q (tdoc_text l) [] (tdoc_text l) [] nids).
  { unfold q', q. apply (k_lines i (length l + length l)); auto; [apply items_refl|rewrite app_nil_r; lia|]. repeat rewrite app_length in L. cbn [length] in L. lia. }
  specialize (BL s1 u1 B). destruct (q' s1 _) as [[s2 r2]| |], (q u1 _) as [[u2 r2']| |]; cbn [rsim rbind] in *; try contradiction; auto.
  destruct BL as (BL & x & x' & E1 & E2 & XL). cbn [fst snd] in *. subst. cbn. split; auto. eexists. eexists. split; [reflexivity|]. split; [reflexivity|]. apply nids_cons; auto.
Qed.
Lemma k_doc : forall l l' s, formed_doc l -> formed_doc l' -> Forall2 kindred_item (contents l) (contents l') ->
  rsim (fun x y => kin (diag s) (fst x) (fst y) /\ exists a b, snd x = Done [] a /\ snd y = Done [] b /\ nids a b) (toml_p s (tdoc_text l)) (toml_p s (tdoc_text l')).
Proof.
  intros l l' s F F' E. rewrite <- (app_nil_r (tdoc_text l)), <- (app_nil_r (tdoc_text l')).
  pose (n := S (length ([10%N] ++ tdoc_text l))). pose (m := S (length ([10%N] ++ tdoc_text l'))).
  assert (B1 := k_first (diag s) l n F ltac:(unfold n; lia) s s (kin_refl s)). assert (B3 := k_first (diag s) l' m F' ltac:(unfold m; lia) s s (kin_refl s)).
  assert (B2 : rsim (fun x y => kin (diag s) (fst x) (fst y) /\ exists a b, snd x = Done [] a /\ snd y = Done [] b /\ nids a b)
    (many_loop n nl_expression_p s (([10%N] ++ tdoc_text l) ++ [])) (many_loop m nl_expression_p s (([10%N] ++ tdoc_text l') ++ []))).
  { destruct l as [|[nl d] l]; [destruct F|]. destruct l' as [|[nl' d'] l']; [destruct F'|]. destruct F as (-> & FD & F). destruct F' as (-> & FD' & F').
    assert (BL : pair (diag s) (diag s) (many_loop n nl_expression_p) (many_loop m nl_expression_p) (tdoc_text (([10], d) :: l)) [] (tdoc_text (([10], d') :: l')) [] nids).
    { apply (k_lines (diag s) (S (length l) + S (length l')));
        [cbn [length]; lia|constructor; [split; [left; reflexivity|exact FD]|exact F]|constructor; [split; [left; reflexivity|exact FD']|exact F']|exact E|unfold n; apply le_n|unfold m; apply le_n]. }
    exact (BL s s (kin_refl s)). }
  clear F F' E. destruct (toml_p s (tdoc_text l ++ [])) as [[s1 r1]| |], (many_loop n nl_expression_p s (([10%N] ++ tdoc_text l) ++ [])) as [[s2 r2]| |]; cbn [rsim] in *; try contradiction;
    destruct (many_loop m nl_expression_p s (([10%N] ++ tdoc_text l') ++ [])) as [[u2 r2']| |]; try contradiction; destruct (toml_p s (tdoc_text l' ++ [])) as [[u1 r1']| |]; cbn [rsim] in *; try contradiction; auto.
  destruct B1 as (B1 & a1 & b1 & X1 & Y1 & Z1), B2 as (B2 & a2 & b2 & X2 & Y2 & Z2), B3 as (B3 & a3 & b3 & X3 & Y3 & Z3). cbn [fst snd] in *. subst r1 r1'. split.
  - eapply kin_trans; [exact B1|]. eapply kin_trans; [exact B2|]. apply kin_sym; auto.
  - exists a1, a3. repeat split; auto. unfold nids in *. congruence.
Qed.
Lemma kin_answers : forall i s t, kin i s t -> kindred_answers s t.
Proof.
  intros i s t H. pose proof (kn_map _ _ _ H) as M. split.
  - intros k. unfold get_children. hcase M (match k with [] => root_key | _ => k end) (p_map s) (p_map t); reflexivity.
  - intros k. unfold get_value in *. hcase M k (p_map s) (p_map t); [|exact I]. destruct hv_value as [c|], hv_value0 as [d|]; cbn [orel] in V; try contradiction; auto.
    destruct (to_val_kin _ _ V) as [(v & v' & -> & -> & K)|E]; [exact K|]. rewrite E in *. destruct (to_val (c_val d)) eqn:X; cbn [rbind] in *; auto using kindred_refl. exact (to_val_nf _ X).
Qed.
Lemma parse_kin : forall s l l', formed_doc l -> formed_doc l' -> Forall2 kindred_item (contents l) (contents l') ->
  match parse s (tdoc_text l), parse s (tdoc_text l') with
  | Ok (s1, r1), Ok (s2, r2) => kin (diag s) s1 s2 /\ nids s1.(p_root) s2.(p_root) /\ kindred_result r1 r2
  | Panic, Panic => True
  | _, _ => False
  end.
Proof.
  intros s l l' F F' E. pose proof (k_doc l l' s F F' E) as B. unfold parse.
  assert (NF : forall i, toml_p s i <> Fuel) by (intros i; apply (nf_toml (length i)), le_n).
  pose proof (NF (tdoc_text l)) as N1. clear NF.
  destruct (toml_p s (tdoc_text l)) as [[s1 r1]| |], (toml_p s (tdoc_text l')) as [[s2 r2]| |]; cbn [rsim rbind] in *; try contradiction; auto.
  destruct B as (B & a & b & E1 & E2 & X). cbn [fst snd] in *. subst r1 r2. pose proof (kn_errors _ _ _ B) as R. 
  split; [|split; [exact X|]].
  - destruct B. constructor; auto.
  - cbn [set_leftover set_root p_errors]. unfold same_errors in R. destruct (p_errors s1), (p_errors s2); try discriminate R; [exact I|exact R].
Qed.

Lemma parse_kindred : forall s l l', formed_doc l -> formed_doc l' -> Forall2 kindred_item (contents l) (contents l') ->
  match parse s (tdoc_text l), parse s (tdoc_text l') with
  | Ok (s1, r1), Ok (s2, r2) => kindred_answers s1 s2 /\ same_errors s1.(p_errors) s2.(p_errors) /\ kindred_result r1 r2
  | Panic, Panic => True
  | _, _ => False
  end.
Proof.
  intros s l l' F F' E. pose proof (parse_kin s l l' F F' E) as B.
  destruct (parse s (tdoc_text l)) as [[s1 r1]| |], (parse s (tdoc_text l')) as [[s2 r2]| |]; auto.
  destruct B as (B & _ & R). split; [eapply kin_answers; exact B|]. split; [apply (kn_errors _ _ _ B)|exact R].
Qed.
