(** Two runs on texts that say the same keep in step. *)
From Coq Require Import Lia ZifyBool ZifyNat ZifyN.
From Verif Require Import Str Regex Types Ast State Nom Keys Grammar Api Facts Spec.
From Verif Require Import RegexFacts NomFacts TypesFacts DateFacts NumFacts StringFacts ScalarFacts CtorFacts.
From Verif Require Import LineFacts FlatFacts RoundTrip ParseFacts ApiFacts DocSpec DotSpec TreeSpec MixSpec PathFacts NestFacts SectFacts DotFacts BlindFacts WholeSpec WholeFacts TwinSpec.

(** ** Results *)
Definition rsim {A B} (R : A -> B -> Prop) (x : res A) (y : res B) : Prop :=
  match x, y with Ok a, Ok b => R a b | Panic, Panic => True | Fuel, Fuel => True | _, _ => False end.
Lemma rs_bind : forall A B C D (R : A -> B -> Prop) (S : C -> D -> Prop) x y f g, rsim R x y -> (forall a b, R a b -> rsim S (f a) (g b)) ->
  rsim S (rbind x f) (rbind y g).
Proof. intros A B C D R S x y f g H F. destruct x, y; cbn [rsim rbind] in *; try contradiction; auto. Qed.
Lemma rs_eq : forall A (R : A -> A -> Prop) x y, x = y -> (forall a, R a a) -> rsim R x y.
Proof. intros A R x y -> H. destruct y; cbn; auto. Qed.
Lemma rs_same : forall A (x y : res A), x = y -> rsim eq x y.
Proof. intros. apply rs_eq; auto. Qed.

(** ** States *)
(** the same value of the same kind *)
Definition kind (v : tval) : N :=
  match v with TInteger _ => 0 | TFloat _ => 1 | TBoolean _ => 2 | TDateTime _ => 3 | TArray _ _ _ => 4 | TString _ _ => 5 | TInlineTable _ _ => 6 | TTable => 7 end.
Definition csame (c d : cell) : Prop := to_val c.(c_val) = to_val d.(c_val) /\ kind c.(c_val) = kind d.(c_val).
Definition hsame (h h' : hash_value) : Prop := orel csame h.(hv_value) h'.(hv_value) /\ h.(hv_subkeys) = h'.(hv_subkeys).
Definition msame (m m' : vmap) : Prop := forall k, orel hsame (hget k m) (hget k m').
Definition ttsame (t t' : table_type) : Prop :=
  match t, t' with
  | TStandard a, TStandard b | TArrayOf a, TArrayOf b => map wk_key a = map wk_key b
  | _, _ => False
  end.
Record twins (s t : pst) : Prop := {
  tw_map : msame s.(p_map) t.(p_map);
  tw_errors : map lineless s.(p_errors) = map lineless t.(p_errors);
  tw_tables : Forall2 ttsame s.(p_tables) t.(p_tables);
  tw_tindex : s.(p_tindex) = t.(p_tindex);
  tw_keychain : s.(p_keychain) = t.(p_keychain);
  tw_last : orel ttsame s.(p_last_table) t.(p_last_table);
  tw_atypes : s.(p_atypes) = t.(p_atypes);
  tw_aerr : s.(p_array_error) = t.(p_array_error);
  tw_ovf : s.(p_ovf) = t.(p_ovf) }.

Lemma csame_refl : forall c, csame c c.
Proof. split; reflexivity. Qed.
Lemma hsame_refl : forall h, hsame h h.
Proof. intros [[c|] sub]; split; cbn; auto. apply csame_refl. Qed.
Lemma msame_refl : forall m, msame m m.
Proof. intros m k. destruct (hget k m); cbn; auto. apply hsame_refl. Qed.
Lemma ttsame_refl : forall t, ttsame t t.
Proof. intros [t|t]; reflexivity. Qed.
Lemma twins_refl : forall s, twins s s.
Proof.
  intros s. constructor; auto.
  - apply msame_refl.
  - induction (p_tables s); constructor; auto. apply ttsame_refl.
  - destruct (p_last_table s); cbn; auto. apply ttsame_refl.
Qed.
Lemma csame_of : forall v c d, to_val c.(c_val) = Ok v -> to_val d.(c_val) = Ok v -> csame c d.
Proof.
  intros v [i a] [j b] A B. cbn [c_val] in *. split; cbn [c_val]; [congruence|].
  assert (K : forall x w, to_val x = Ok w -> kind x = match w with VInteger _ => 0 | VFloat _ => 1 | VBoolean _ => 2 | VDateTime _ => 3 | VArray _ => 4 | VString _ _ => 5 | VInlineTable _ => 6 end).
  { intros x w. destruct x; cbn [to_val kind]; intros E; try (inversion E; subst; reflexivity); apply rbind_ok in E as (l & _ & E); inversion E; subst; reflexivity. }
  rewrite (K _ _ A), (K _ _ B). reflexivity.
Qed.
Lemma msame_put : forall m m' k h h', msame m m' -> hsame h h' -> msame (hput k h m) (hput k h' m').
Proof.
  intros m m' k h h' M H x. destruct (str_eqb x k) eqn:E.
  - apply str_eqb_eq in E. subst x. rewrite !hget_hput_same. exact H.
  - assert (x <> k) by (intros ->; rewrite str_eqb_refl in E; discriminate). rewrite !hget_hput_other by auto. apply M.
Qed.

(** ** Lists *)
Lemma f2_push : forall A (R : A -> A -> Prop) l l' x y, Forall2 R l l' -> R x y -> Forall2 R (vpush l x) (vpush l' y).
Proof. intros. unfold vpush. apply Forall2_app; auto. Qed.
Lemma f2_pop : forall A (R : A -> A -> Prop) l l', Forall2 R l l' -> Forall2 R (vpop l) (vpop l').
Proof.
  intros A R l l' H. unfold vpop. induction H as [|x y l l' X H IH]; [constructor|]. cbn [removelast]. destruct H; constructor; auto.
Qed.
Lemma f2_rev : forall A (R : A -> A -> Prop) l l', Forall2 R l l' -> Forall2 R (rev l) (rev l').
Proof. intros A R l l' H. induction H; cbn [rev]; auto. apply Forall2_app; auto. Qed.
Lemma f2_nth : forall A (R : A -> A -> Prop) l l', Forall2 R l l' -> forall i, orel R (nth_error l i) (nth_error l' i).
Proof. intros A R l l' H. induction H; intros [|i]; cbn [nth_error orel]; auto. Qed.
Lemma f2_len : forall A (R : A -> A -> Prop) l l', Forall2 R l l' -> length l = length l'.
Proof. intros A R l l' H. induction H; cbn; auto. Qed.
Lemma f2_last : forall A (R : A -> A -> Prop) l l', Forall2 R l l' -> orel R (vlast l) (vlast l').
Proof.
  intros A R l l' H. unfold vlast. pose proof (f2_nth _ _ _ _ H (length l - 1)) as N. rewrite (f2_len _ _ _ _ H) in N at 2.
  destruct H; [exact I|]. exact N.
Qed.
Lemma f2_index : forall A (R : A -> A -> Prop) l l', Forall2 R l l' -> forall i, rsim R (vindex l i) (vindex l' i).
Proof. intros A R l l' H i. unfold vindex. pose proof (f2_nth _ _ _ _ H i) as N. destruct (nth_error l i), (nth_error l' i); cbn in *; auto. Qed.

(** ** Tables *)
Lemma names_format : forall a b, map wk_key a = map wk_key b -> format_keys a = format_keys b.
Proof.
  induction a as [|x a IH]; intros [|y b] E; try discriminate E; [reflexivity|]. cbn [map] in E. injection E as E1 E2. specialize (IH b E2).
  cbn [format_keys]. destruct a as [|x2 a], b as [|y2 b]; try discriminate E2; [exact E1|]. rewrite E1, IH. reflexivity.
Qed.
Lemma tt_names : forall t t', ttsame t t' -> map wk_key (tt_table t) = map wk_key (tt_table t').
Proof. intros [a|a] [b|b] H; cbn in *; auto; contradiction. Qed.
Lemma tt_format : forall t t', ttsame t t' -> format_tt_keys t = format_tt_keys t'.
Proof. intros t t' H. apply names_format, tt_names, H. Qed.
Lemma tt_len : forall t t', ttsame t t' -> length (tt_table t) = length (tt_table t').
Proof. intros t t' H. apply tt_names in H. rewrite <- (map_length wk_key (tt_table t)), H. apply map_length. Qed.
Lemma tt_sub : forall t t' u u', ttsame t t' -> ttsame u u' -> is_subtable_of t u = is_subtable_of t' u'.
Proof. intros t t' u u' H K. unfold is_subtable_of. rewrite (names_format _ _ (tt_names _ _ H)), (names_format _ _ (tt_names _ _ K)). reflexivity. Qed.
Lemma last_keys_same : forall a b, map wk_key a = map wk_key b -> get_last_keys a = get_last_keys b.
Proof. intros a b H. unfold get_last_keys. congruence. Qed.
Lemma gkp_same : forall ts ts' ti, Forall2 ttsame ts ts' -> forall n i pe kp, gkp_loop ts ti n i pe kp = gkp_loop ts' ti n i pe kp.
Proof.
  intros ts ts' ti H. induction n as [|n IH]; intros i pe kp; [reflexivity|]. cbn [gkp_loop].
  pose proof (f2_index _ _ _ _ H i) as N. destruct (vindex ts i) as [t| |], (vindex ts' i) as [t'| |]; cbn [rsim rbind] in *; try contradiction; auto.
  destruct t as [a|a], t' as [b|b]; cbn [ttsame] in N; try contradiction; [apply IH|]. rewrite (last_keys_same a b N). destruct (vindex ti i); cbn [rbind]; auto.
Qed.
Lemma parent_same : forall ts ts' ti, Forall2 ttsame ts ts' -> get_key_parent ts ti = get_key_parent ts' ti.
Proof. intros. unfold get_key_parent. apply gkp_same; auto. Qed.

(** ** The map *)
Lemma is_table_same : forall A (x y : A) c d, csame c d ->
  match c.(c_val) with TTable => x | _ => y end = match d.(c_val) with TTable => x | _ => y end.
Proof. intros A x y [i a] [j b] [_ K]. cbn [c_val] in *. destruct a, b; cbn [kind] in K; try discriminate K; reflexivity. Qed.
Lemma khv_same : forall m m' k, msame m m' -> key_has_value m k = key_has_value m' k.
Proof.
  intros m m' k M. unfold key_has_value. specialize (M k). destruct (hget k m) as [[v sub]|], (hget k m') as [[v' sub']|]; cbn [orel] in M; try contradiction; auto.
  destruct M as [V _]. cbn [hv_value] in *. destruct v as [c|], v' as [d|]; cbn [orel] in V; try contradiction; auto. apply is_table_same; auto.
Qed.
Lemma hmem_same : forall m m' k, msame m m' -> hmem k m = hmem k m'.
Proof. intros m m' k M. unfold hmem. specialize (M k). destruct (hget k m), (hget k m'); cbn in *; auto; contradiction. Qed.
Ltac hcase M k m m' := let X := fresh "X" in pose proof (M k) as X; destruct (hget k m) as [[? ?]|], (hget k m') as [[? ?]|]; cbn [orel] in X; try contradiction;
  [destruct X as [?V ?S]; cbn [hv_value hv_subkeys] in *; subst|].
Lemma gatk_arr_same : forall m m', msame m m' -> forall ks fk, gatk_arr m ks fk = gatk_arr m' ks fk.
Proof.
  intros m m' M. induction ks as [|k ks IH]; intros fk; [reflexivity|]. destruct ks as [|k1 rest]; [reflexivity|].
  change (gatk_arr m (k :: k1 :: rest) fk) with (match hget (fk ++ k) m with
      | None => Panic
      | Some hv => rbind (match hv.(hv_subkeys) with
            | Count c => if str_eqb (fk ++ k) root_key then Ok [] else Ok ((fk ++ k) ++ idx_str c ++ lit ".")
            | Keys l => if vcontains l k1 || match rest with [] => true | _ => false end
                then (if str_eqb (fk ++ k) root_key then Ok [] else Ok ((fk ++ k) ++ lit ".")) else Panic
            end) (fun fk => gatk_arr m (k1 :: rest) fk) end).
  change (gatk_arr m' (k :: k1 :: rest) fk) with (match hget (fk ++ k) m' with
      | None => Panic
      | Some hv => rbind (match hv.(hv_subkeys) with
            | Count c => if str_eqb (fk ++ k) root_key then Ok [] else Ok ((fk ++ k) ++ idx_str c ++ lit ".")
            | Keys l => if vcontains l k1 || match rest with [] => true | _ => false end
                then (if str_eqb (fk ++ k) root_key then Ok [] else Ok ((fk ++ k) ++ lit ".")) else Panic
            end) (fun fk => gatk_arr m' (k1 :: rest) fk) end).
  hcase M (fk ++ k) m m'; [|reflexivity]. cbn [hv_subkeys]. match goal with |- rbind ?x _ = _ => destruct x; cbn [rbind]; auto end.
Qed.
Lemma gatk_std_same : forall m m', msame m m' -> forall ks v fk pk, gatk_std m ks v fk pk = gatk_std m' ks v fk pk.
Proof.
  intros m m' M. induction ks as [|k ks IH]; intros v fk pk; [reflexivity|]. destruct ks as [|k1 rest]; [reflexivity|].
  cbn [gatk_std] in *. destruct (str_eqb k root_key); [apply IH|]. rewrite (khv_same m m' _ M). apply IH.
Qed.
Lemma gatk_loop_same : forall b m m' ts ts' ti, msame m m' -> Forall2 ttsame ts ts' -> forall n i pe v fk pk,
  gatk_loop b m ts ti n i pe v fk pk = gatk_loop b m' ts' ti n i pe v fk pk.
Proof.
  intros b m m' ts ts' ti M T. induction n as [|n IH]; intros i pe v fk pk; [reflexivity|]. cbn [gatk_loop].
  pose proof (f2_index _ _ _ _ T i) as N. destruct (vindex ts i) as [t| |], (vindex ts' i) as [t'| |]; cbn [rsim rbind] in *; try contradiction; auto.
  destruct t as [t|t], t' as [u|u]; cbn [ttsame] in N; try contradiction; rewrite (last_keys_same t u N).
  - rewrite (gatk_std_same m m' M). destruct (gatk_std m' _ v fk pk) as [[v1 fk1] pk1]. rewrite (khv_same m m' _ M). apply IH.
  - rewrite (gatk_arr_same m m' M). destruct (gatk_arr m' _ fk) as [fk1| |]; cbn [rbind]; auto.
    hcase M (fk1 ++ last (get_last_keys u) []) m m'.
    + assert (E : match hv_value with Some _ => false | None => match hv_subkeys0 with Keys _ => false | Count _ => v end end =
                  match hv_value0 with Some _ => false | None => match hv_subkeys0 with Keys _ => false | Count _ => v end end).
      { destruct hv_value, hv_value0; cbn [orel] in V; try contradiction; auto. }
      destruct hv_subkeys0; (match goal with |- rbind ?x _ = _ => destruct x; cbn [rbind]; auto end); rewrite E; destruct (Nat.ltb _ _); apply IH.
    + destruct (vindex ti i); cbn [rbind]; auto. destruct (Nat.ltb _ _); apply IH.
Qed.
Lemma gatk_same : forall b m m' ts ts' ti, msame m m' -> Forall2 ttsame ts ts' -> get_array_table_key b m ts ti = get_array_table_key b m' ts' ti.
Proof. intros. unfold get_array_table_key. apply gatk_loop_same; auto. Qed.
Lemma full_same : forall b m m' ts ts' ti kc, msame m m' -> Forall2 ttsame ts ts' -> get_full_key b m ts ti kc = get_full_key b m' ts' ti kc.
Proof. intros. unfold get_full_key. erewrite gatk_same by eauto. reflexivity. Qed.
Lemma khcv_same : forall m m' k, msame m m' -> key_has_children_with_values m k = key_has_children_with_values m' k.
Proof.
  intros m m' k M. unfold key_has_children_with_values. destruct (str_eqb k root_key); auto. hcase M k m m'; [|reflexivity].
  destruct hv_subkeys0 as [c|l]; auto. f_equal. clear -M. induction l as [|x l IH]; [reflexivity|]. cbn [existsb]. rewrite (khv_same m m' _ M), IH. reflexivity.
Qed.
Lemma same_put : forall m m' k v v' sub, msame m m' -> orel csame v v' -> msame (hput k (HashValue v sub) m) (hput k (HashValue v' sub) m').
Proof. intros. apply msame_put; auto. split; auto. Qed.
Lemma update_same : forall m m' pk kc, msame m m' -> rsim msame (update_parent m pk kc) (update_parent m' pk kc).
Proof.
  intros m m' pk kc M. unfold update_parent. hcase M pk m m'.
  - destruct hv_subkeys0; [cbn; apply same_put; auto|]. destruct (vlast kc) as [[s|i]|]; cbn; auto. apply same_put; auto.
  - destruct (vlast kc) as [[s|i]|]; cbn; auto; apply msame_put; auto; apply hsame_refl.
Qed.
Lemma keys_same : forall s t, twins s t -> keyval_keys s = keyval_keys t.
Proof.
  intros s t H. destruct H as [M E T I K L A AE O]. unfold keyval_keys. rewrite I, K, O.
  destruct (p_last_table s) as [[a|a]|], (p_last_table t) as [[b|b]|]; cbn [orel ttsame] in L; try contradiction; auto.
  - erewrite full_same; [reflexivity|auto|]. apply f2_push; auto.
  - erewrite full_same; [reflexivity|auto|auto].
Qed.

(** ** Fields *)
Lemma tw_set_map : forall s t m m', twins s t -> msame m m' -> twins (set_map m s) (set_map m' t).
Proof. intros s t m m' [] M. constructor; cbn; auto. Qed.
Lemma tw_error : forall s t e e', twins s t -> lineless e = lineless e' -> twins (push_error e s) (push_error e' t).
Proof. intros s t e e' [] E. constructor; cbn; auto. unfold vpush. rewrite !map_app. cbn [map]. congruence. Qed.
Lemma tw_set_errors : forall s t e e', twins s t -> map lineless e = map lineless e' -> twins (set_errors e s) (set_errors e' t).
Proof. intros s t e e' [] E. constructor; cbn; auto. Qed.
Lemma tw_set_tables : forall s t a b i, twins s t -> Forall2 ttsame a b -> twins (set_tables a i s) (set_tables b i t).
Proof. intros s t a b i [] E. constructor; cbn; auto. Qed.
Lemma tw_set_chain : forall s t k, twins s t -> twins (set_keychain k s) (set_keychain k t).
Proof. intros s t k []. constructor; cbn; auto. Qed.
Lemma tw_set_last : forall s t a b, twins s t -> orel ttsame a b -> twins (set_last_table a s) (set_last_table b t).
Proof. intros s t a b [] E. constructor; cbn; auto. Qed.
Lemma tw_set_atypes : forall s t a, twins s t -> twins (set_atypes a s) (set_atypes a t).
Proof. intros s t a []. constructor; cbn; auto. Qed.
Lemma tw_set_aerr : forall s t b, twins s t -> twins (set_array_error b s) (set_array_error b t).
Proof. intros s t b []. constructor; cbn; auto. Qed.
Lemma tw_set_next : forall s t a b, twins s t -> twins (set_next a s) (set_next b t).
Proof. intros s t a b []. constructor; cbn; auto. Qed.
Lemma tw_set_line : forall s t a b, twins s t -> twins (set_line a s) (set_line b t).
Proof. intros s t a b []. constructor; cbn; auto. Qed.
Lemma tw_push_key : forall s t k, twins s t -> twins (push_key k s) (push_key k t).
Proof. intros s t k H. unfold push_key. rewrite (tw_keychain _ _ H). apply tw_set_chain; auto. Qed.
Lemma tw_pop_key : forall s t, twins s t -> twins (pop_key s) (pop_key t).
Proof. intros s t H. unfold pop_key. rewrite (tw_keychain _ _ H). apply tw_set_chain; auto. Qed.

(** ** Actions *)
Lemma insert_same : forall s t c d, twins s t -> csame c d -> rsim twins (insert_keyval_into_map s c) (insert_keyval_into_map t d).
Proof.
  intros s t c d H C. unfold insert_keyval_into_map. rewrite (keys_same _ _ H). destruct (keyval_keys t) as [[fk pk]| |]; cbn [rbind rsim]; auto.
  pose proof (tw_map _ _ H) as M. hcase M fk (p_map s) (p_map t).
  - destruct hv_value as [c0|], hv_value0 as [d0|]; cbn [orel] in V; try contradiction.
    + destruct C as [C _]. rewrite C. destruct (to_val (c_val d)); cbn [rbind rsim]; auto. apply tw_error; auto.
    + eapply rs_bind; [rewrite (tw_keychain _ _ H); apply update_same, same_put; auto|]. intros m m' MM. cbn. apply tw_set_map; auto.
  - eapply rs_bind; [rewrite (tw_keychain _ _ H); apply update_same, msame_put; auto|intros m m' MM; cbn; apply tw_set_map; auto].
    destruct C as [C K]. destruct c as [i a], d as [j b]; cbn [c_val] in *. destruct a, b; cbn [kind] in K; try discriminate K; (split; cbn [hv_value hv_subkeys hv_new_keys hv_new_count orel]; [split; auto|auto]).
Qed.
Lemma errors_last : forall l l', map lineless l = map lineless l' -> orel (fun a b => lineless a = lineless b) (vlast l) (vlast l').
Proof.
  intros l l' E. apply f2_last. revert l' E. induction l as [|a l IH]; intros [|b l'] E; try discriminate E; constructor; inversion E; auto.
Qed.
Lemma errors_pop : forall l l', map lineless l = map lineless l' -> map lineless (vpop l) = map lineless (vpop l').
Proof.
  intros l l' E. unfold vpop. revert l' E. induction l as [|a l IH]; intros [|b l'] E; try discriminate E; [reflexivity|]. cbn [map] in E. injection E as E1 E2. specialize (IH l' E2).
  cbn [removelast]. destruct l, l'; try discriminate E2; [reflexivity|]. cbn [map]. rewrite E1. f_equal. exact IH.
Qed.
Definition asame {A} (R : A -> A -> Prop) (x y : pst * A) : Prop := twins (fst x) (fst y) /\ R (snd x) (snd y).
Lemma keyval_same : forall s t k sep sep' c d, twins s t -> csame c d ->
  rsim (asame (fun _ _ => True)) (keyval_act k sep c s) (keyval_act k sep' d t).
Proof.
  intros s t k sep sep' c d H C. unfold keyval_act. eapply rs_bind with (R := twins); [|intros a b X; split; cbn; auto; apply tw_pop_key; auto].
  rewrite (tw_aerr _ _ H). destruct (p_array_error t); [|apply insert_same; auto].
  pose proof (errors_last _ _ (tw_errors _ _ H)) as L. destruct (vlast (p_errors s)) as [e|], (vlast (p_errors t)) as [e'|]; cbn [orel] in L; try contradiction; [|exact I].
  pose proof (errors_pop _ _ (tw_errors _ _ H)) as PO.
  destruct e, e'; cbn [lineless] in L; try discriminate L; try (cbn [rsim]; apply tw_set_errors; auto; unfold vpush; rewrite !map_app, PO; cbn [map lineless]; congruence).
  injection L as <- <-. destruct C as [C _]. rewrite C. destruct (to_val (c_val d)); cbn [rbind rsim]; auto.
  apply tw_set_errors; auto. unfold vpush. rewrite !map_app, PO. reflexivity.
Qed.
Lemma mixed_same : forall s t a, twins s t -> rsim twins (check_mixed a s) (check_mixed a t).
Proof.
  intros s t a H. unfold check_mixed. rewrite (tw_atypes _ _ H). destruct (vlast (p_atypes t)) as [l|]; [|exact H].
  destruct (negb _ && negb _); [|exact H]. rewrite (tw_ovf _ _ H), (tw_tindex _ _ H), (tw_keychain _ _ H).
  rewrite (full_same _ _ _ _ _ _ _ (tw_map _ _ H) (tw_tables _ _ H)). destruct (get_full_key _ _ _ _ _) as [[[v fk] pk]| |]; cbn [rbind rsim]; auto.
  pose proof (errors_last _ _ (tw_errors _ _ H)) as L. destruct (vlast (p_errors s)) as [e|], (vlast (p_errors t)) as [e'|]; cbn [orel] in L; try contradiction; [|apply tw_error; auto].
  destruct e, e'; cbn [lineless] in L; try discriminate L; auto. injection L as <-. destruct (negb (starts_with key fk)); auto. apply tw_error; auto.
Qed.
Lemma value_same : forall s t c d sep sep' n n', twins s t -> csame c d ->
  rsim (asame (fun a b => csame a.(av_val) b.(av_val))) (array_value_act c sep n s) (array_value_act d sep' n' t).
Proof.
  intros s t c d sep sep' n n' H C. unfold array_value_act.
  assert (E : map_val_to_array_type (c_val c) = map_val_to_array_type (c_val d)).
  { destruct C as [_ K]. destruct (c_val c), (c_val d); cbn [kind] in K; try discriminate K; reflexivity. }
  rewrite E. destruct (map_val_to_array_type (c_val d)) as [a| |]; cbn [rbind rsim]; auto.
  eapply rs_bind; [apply mixed_same; eauto|]. intros s1 t1 H1. rewrite (tw_atypes _ _ H1). eapply rs_bind; [apply insert_same; [apply tw_set_atypes; eauto|exact C]|].
  intros s2 t2 H2. cbn [p_keychain set_atypes]. rewrite (tw_keychain _ _ H1), (tw_keychain _ _ H2). destruct (nth_error _ _); cbn [rsim]; auto.
  split; cbn [fst snd]; [apply tw_set_chain; auto|exact C].
Qed.
Lemma drop_same : forall s t n, twins s t -> rsim twins (keychain_drop n s) (keychain_drop n t).
Proof. intros s t n H. unfold keychain_drop. rewrite (tw_keychain _ _ H). destruct (Nat.ltb _ _); cbn; auto. apply tw_set_chain; auto. Qed.

(** ** Headers *)
Lemma ait_same : forall ks ks', map wk_key ks = map wk_key ks' -> forall m m' f lk, msame m m' -> rsim msame (ait_loop m ks f lk) (ait_loop m' ks' f lk).
Proof.
  induction ks as [|k ks IH]; intros [|k' ks'] E m m' f lk M; try discriminate E; [exact M|]. cbn [map] in E. injection E as EK E. specialize (IH ks' E).
  cbn [ait_loop].
  set (R := fun x y : vmap * bool * bool => msame (fst (fst x)) (fst (fst y)) /\ snd (fst x) = snd (fst y) /\ snd x = snd y).
  eapply rs_bind with (R := R).
  - hcase M lk m m'; [|cbn; unfold R; auto]. rewrite EK. destruct hv_subkeys0 as [c|l].
    + destruct f; cbn; auto. unfold R. cbn. repeat split; auto; apply same_put; auto.
    + destruct (vinsert l (wk_key k')) as [l' ins]. cbn. unfold R. cbn. repeat split; auto; apply same_put; auto.
  - intros [[m1 i1] f1] [[m2 i2] f2] (M1 & I1 & F1). cbn [fst snd] in *. subst i2 f2.
    destruct ks as [|k2 ks], ks' as [|k2' ks']; try discriminate E; [exact M1|]. rewrite EK. apply IH. destruct i1; auto. apply msame_put; auto. apply hsame_refl.
Qed.
Lemma skipn_names : forall n a b, map wk_key a = map wk_key b -> map wk_key (skipn n a) = map wk_key (skipn n b).
Proof.
  induction n as [|n IH]; intros a b E; [exact E|]. destruct a, b; try discriminate E; [reflexivity|]. cbn [skipn]. apply IH. inversion E; auto.
Qed.
Lemma implicit_same : forall b m m' ts ts' ti t t', msame m m' -> Forall2 ttsame ts ts' -> ttsame t t' ->
  rsim msame (add_implicit_tables b m ts ti t) (add_implicit_tables b m' ts' ti t').
Proof.
  intros b m m' ts ts' ti t t' M T N. unfold add_implicit_tables. rewrite (gatk_same b m m' ts ts' ti M T).
  destruct (get_array_table_key b m' ts' ti) as [[[v lk] pk]| |]; cbn [rbind rsim]; auto. destruct (negb v); [exact M|].
  pose proof (f2_last _ _ _ _ T) as L. destruct (vlast ts) as [l|], (vlast ts') as [l'|]; cbn [orel] in L; try contradiction.
  - rewrite (tt_len _ _ L). apply ait_same; auto. apply skipn_names, tt_names, N.
  - apply ait_same; auto. apply skipn_names, tt_names, N.
Qed.
Lemma incr_same : forall m m' ts ts' ti, msame m m' -> Forall2 ttsame ts ts' ->
  rsim (fun x y => msame (fst x) (fst y) /\ snd x = snd y) (increment_array_table_index m ts ti) (increment_array_table_index m' ts' ti).
Proof.
  intros m m' ts ts' ti M T. unfold increment_array_table_index. rewrite (parent_same ts ts' ti T). destruct (get_key_parent ts' ti) as [pk| |]; cbn [rbind rsim]; auto.
  destruct (vlast ti); cbn [rsim]; auto. cbn [fst snd]. split; auto. hcase M pk m m'; auto. destruct hv_subkeys0; auto. apply same_put; auto.
Qed.
Lemma set_same : forall m m' ts ts' ti k, msame m m' -> Forall2 ttsame ts ts' -> rsim msame (add_to_table_set m ts ti k) (add_to_table_set m' ts' ti k).
Proof.
  intros m m' ts ts' ti k M T. unfold add_to_table_set. rewrite (parent_same ts ts' ti T). destruct (get_key_parent ts' ti) as [pk| |]; cbn [rbind rsim]; auto.
  hcase M pk m m'; auto. destruct hv_subkeys0; auto. apply same_put; auto.
Qed.
Definition psame (x y : list table_type * list N) : Prop := Forall2 ttsame (fst x) (fst y) /\ snd x = snd y.
Lemma pop_sub_same : forall t t', ttsame t t' -> forall rt rt', Forall2 ttsame rt rt' -> forall ri, psame (pop_until_sub t rt ri) (pop_until_sub t' rt' ri).
Proof.
  intros t t' N rt rt' H. induction H as [|x y rt rt' X H IH]; intros ri; cbn [pop_until_sub]; [split; cbn; auto|].
  inversion H as [|x2 y2 r2 r2' X2 H2 E1 E2]; subst; [split; cbn; auto|]. rewrite (tt_sub t t' x2 y2) by auto. destruct (is_subtable_of t' y2); [split; cbn; auto|]. apply IH.
Qed.
Lemma pop_key_same : forall k rt rt', Forall2 ttsame rt rt' -> forall ri, psame (pop_until_key k rt ri) (pop_until_key k rt' ri).
Proof.
  intros k rt rt' H. induction H as [|x y rt rt' X H IH]; intros ri; cbn [pop_until_key]; [split; cbn; auto|].
  rewrite (tt_format _ _ X). destruct (str_eqb k (format_tt_keys y)); [split; cbn; auto|]. apply IH.
Qed.
Lemma new_same : forall w w' k l l', map wk_key l = map wk_key l' -> map wk_key (table_new w k l) = map wk_key (table_new w' k l').
Proof. intros. unfold table_new. cbn [map wk_key]. congruence. Qed.
Lemma top_same : forall ts ts', Forall2 ttsame ts ts' -> is_top_std_table ts = is_top_std_table ts'.
Proof.
  intros ts ts' T. unfold is_top_std_table. pose proof (f2_last _ _ _ _ T) as L.
  destruct (vlast ts) as [[a|a]|], (vlast ts') as [[b|b]|]; cbn in L; try contradiction; auto.
Qed.
Lemma eql_same : forall t t' ts ts', ttsame t t' -> Forall2 ttsame ts ts' -> equal_key_length t ts = equal_key_length t' ts'.
Proof.
  intros t t' ts ts' N T. unfold equal_key_length. pose proof (f2_last _ _ _ _ T) as L.
  destruct (vlast ts), (vlast ts'); cbn [orel] in L; try contradiction; auto. rewrite (tt_len _ _ N), (tt_len _ _ L). reflexivity.
Qed.
Lemma std_same : forall s t w1 w2 w1' w2' k l l', twins s t -> map wk_key l = map wk_key l' ->
  rsim (asame (fun _ _ => True)) (std_table_act w1 w2 k l s) (std_table_act w1' w2' k l' t).
Proof.
  intros s t w1 w2 w1' w2' k l l' H L. unfold std_table_act.
  assert (LN : length l = length l') by (rewrite <- (map_length wk_key l), L; apply map_length). rewrite LN.
  eapply rs_bind; [apply drop_same; eauto|]. clear s t H. intros s t H.
  pose proof (new_same {| ws1 := w1; ws2 := w2 |} {| ws1 := w1'; ws2 := w2' |} k l l' L) as TN.
  set (tb := table_new {| ws1 := w1; ws2 := w2 |} k l) in *. set (tb' := table_new {| ws1 := w1'; ws2 := w2' |} k l') in *.
  assert (RT : ttsame (TStandard tb) (TStandard tb')) by exact TN.
  destruct H as [M E T I K LT A AE O] eqn:HH. clear HH.
  set (x1 := if is_top_std_table (p_tables s) || equal_key_length (TStandard tb) (p_tables s) then (vpop (p_tables s), vpop (p_tindex s)) else (p_tables s, p_tindex s)).
  set (y1 := if is_top_std_table (p_tables t) || equal_key_length (TStandard tb') (p_tables t) then (vpop (p_tables t), vpop (p_tindex t)) else (p_tables t, p_tindex t)).
  assert (P1 : psame x1 y1).
  { unfold x1, y1. rewrite (top_same _ _ T), (eql_same _ _ _ _ RT T), I. match goal with |- psame (if ?b then _ else _) _ => destruct b end; split; cbn; auto. apply f2_pop; auto. }
  destruct x1 as [ts1 ti1], y1 as [ts1' ti1']. destruct P1 as [T1 I1]. cbn [fst snd] in T1, I1. subst ti1'.
  rewrite (tt_format _ _ RT).
  match goal with |- rsim _ (let '(_, _) := ?x in _) (let '(_, _) := ?y in _) => set (x2 := x); set (y2 := y) end.
  assert (P2 : psame x2 y2).
  { unfold x2, y2. pose proof (f2_last _ _ _ _ T1) as LL. destruct (vlast ts1) as [a|], (vlast ts1') as [b|]; cbn [orel] in LL; try contradiction; [|split; auto].
    rewrite (tt_format _ _ LL), (tt_sub _ _ _ _ RT LL). match goal with |- psame (if ?b then _ else _) _ => destruct b end; [split; auto|]. match goal with |- psame (if ?b then _ else _) _ => destruct b end; [split; auto|].
    pose proof (pop_sub_same _ _ RT _ _ (f2_rev _ _ _ _ T1) (rev ti1)) as [PA PB].
    destruct (pop_until_sub (TStandard tb) (rev ts1) (rev ti1)), (pop_until_sub (TStandard tb') (rev ts1') (rev ti1)). cbn [fst snd] in *. subst. split; cbn; auto. apply f2_rev; auto. }
  destruct x2 as [ts ti], y2 as [ts' ti']. destruct P2 as [T2 I2]. cbn [fst snd] in T2, I2. subst ti'.
  rewrite O. pose proof (gatk_same (p_ovf t) _ _ _ _ (vpush ti 0) M (f2_push _ _ _ _ _ _ T2 RT)) as G. rewrite G.
  eapply rs_bind with (R := eq).
  { apply rs_same. pose proof (f2_last _ _ _ _ T2) as LL. destruct (vlast ts) as [a|], (vlast ts') as [b|]; cbn [orel] in LL; try contradiction; [rewrite (tt_format _ _ LL); destruct (str_eqb _ _); auto|];
      (destruct (get_array_table_key (p_ovf t) (p_map t) (vpush ts' (TStandard tb')) (vpush ti 0)) as [[[v tk] pk]| |]; cbn [rbind]; auto;
       destruct (negb v); auto; rewrite (khcv_same _ _ pk M); destruct (key_has_children_with_values (p_map t) pk) as [[|]| |]; cbn [rbind]; auto;
       f_equal; f_equal; f_equal; hcase M tk (p_map s) (p_map t); auto; destruct hv_value, hv_value0; cbn [orel] in V; try contradiction; auto; apply is_table_same; auto). }
  intros [[er tk] pk] y <-. destruct er.
  - destruct (get_array_table_key (p_ovf t) (p_map t) (vpush ts' (TStandard tb')) (vpush ti 0)) as [[[v atk] pk2]| |]; cbn [rbind rsim]; auto.
    split; cbn [fst snd]; auto. apply tw_set_aerr, tw_error; auto. apply tw_set_tables; auto.
  - eapply rs_bind; [apply implicit_same; eauto|]. intros m1 m1' M1. rewrite TN.
    eapply rs_bind; [apply set_same; eauto|]. intros m2 m2' M2. unfold new_cell. cbn [c_id].
    set (m3 := match hget tk m2 with Some hv => _ | None => _ end). set (m3' := match hget tk m2' with Some hv => _ | None => _ end).
    assert (M3 : msame m3 m3').
    { unfold m3, m3'. hcase M2 tk m2 m2'; [apply same_put; auto; split; reflexivity|apply msame_put; auto; split; cbn; [split; reflexivity|reflexivity]]. }
    eapply rs_bind with (R := msame).
    + hcase M3 pk m3 m3'; [|exact M3]. destruct hv_subkeys0; cbn [rsim]; auto. apply same_put; auto.
    + intros m4 m4' M4. split; cbn [fst snd]; auto. apply tw_set_last; [|exact RT]. apply tw_set_aerr, tw_set_map; auto. apply tw_set_tables; [apply tw_set_next; auto|]. apply f2_push; auto.
Qed.
Lemma arr_same : forall s t w1 w2 w1' w2' k l l', twins s t -> map wk_key l = map wk_key l' ->
  rsim (asame (fun _ _ => True)) (array_table_act w1 w2 k l s) (array_table_act w1' w2' k l' t).
Proof.
  intros s t w1 w2 w1' w2' k l l' H L. unfold array_table_act.
  assert (LN : length l = length l') by (rewrite <- (map_length wk_key l), L; apply map_length). rewrite LN.
  eapply rs_bind; [apply drop_same; eauto|]. clear s t H. intros s t H.
  pose proof (new_same {| ws1 := w1; ws2 := w2 |} {| ws1 := w1'; ws2 := w2' |} k l l' L) as TN.
  set (tb := table_new {| ws1 := w1; ws2 := w2 |} k l) in *. set (tb' := table_new {| ws1 := w1'; ws2 := w2' |} k l') in *.
  assert (RT : ttsame (TArrayOf tb) (TArrayOf tb')) by exact TN.
  destruct H as [M E T I K LT A AE O] eqn:HH. clear HH.
  set (x1 := if is_top_std_table (p_tables s) then (vpop (p_tables s), vpop (p_tindex s)) else (p_tables s, p_tindex s)).
  set (y1 := if is_top_std_table (p_tables t) then (vpop (p_tables t), vpop (p_tindex t)) else (p_tables t, p_tindex t)).
  assert (P1 : psame x1 y1).
  { unfold x1, y1. rewrite (top_same _ _ T), I. match goal with |- psame (if ?b then _ else _) _ => destruct b end; split; cbn; auto. apply f2_pop; auto. }
  destruct x1 as [ts1 ti1], y1 as [ts1' ti1']. destruct P1 as [T1 I1]. cbn [fst snd] in T1, I1. subst ti1'.
  cbn [set_array_error p_map p_ovf p_line]. rewrite (tt_format _ _ RT), O.
  eapply rs_bind with (R := fun x y => msame (fst (fst x)) (fst (fst y)) /\ Forall2 ttsame (snd (fst x)) (snd (fst y)) /\ snd x = snd y).
  - pose proof (f2_last _ _ _ _ T1) as LL. destruct (vlast ts1) as [a|], (vlast ts1') as [b|]; cbn [orel] in LL; try contradiction.
    + rewrite (tt_format _ _ LL), (tt_sub _ _ _ _ RT LL). destruct (str_eqb _ _).
      { eapply rs_bind; [apply incr_same; eauto|]. intros [m1 i1] [m2 i2] [A1 A2]. cbn in *. auto. }
      destruct (is_subtable_of _ _).
      { eapply rs_bind; [apply implicit_same; eauto|]. intros m1 m2 A1. cbn. repeat split; auto. apply f2_push; auto. }
      pose proof (pop_key_same (format_tt_keys (TArrayOf tb')) _ _ (f2_rev _ _ _ _ T1) (rev ti1)) as [PA PB].
      destruct (pop_until_key (format_tt_keys (TArrayOf tb')) (rev ts1) (rev ti1)) as [ra rb], (pop_until_key (format_tt_keys (TArrayOf tb')) (rev ts1') (rev ti1)) as [ra' rb']. cbn [fst snd] in *. subst rb'.
      apply f2_rev in PA. destruct PA as [|z z' zs zs' PZ PA].
      * eapply rs_bind; [apply implicit_same; eauto|]. intros m1 m2 A1.
        assert (T3 : Forall2 ttsame (vpush [] (TArrayOf tb)) (vpush [] (TArrayOf tb'))) by (apply f2_push; auto).
        rewrite (parent_same _ _ (vpush (rev rb) 0) T3). destruct (get_key_parent _ _) as [pk| |]; cbn [rbind rsim]; auto.
        rewrite (hmem_same _ _ pk A1). destruct (hmem pk m2); [|cbn; auto].
        eapply rs_bind; [apply incr_same; eauto|]. intros [m3 i3] [m4 i4] [A3 A4]. cbn in *. auto.
      * assert (T3 : Forall2 ttsame (z :: zs) (z' :: zs')) by (constructor; auto).
        eapply rs_bind; [apply incr_same; eauto|]. intros [m3 i3] [m4 i4] [A3 A4]. cbn in *. auto.
    + eapply rs_bind; [apply implicit_same; eauto|]. intros m1 m2 A1. cbn. repeat split; auto. apply f2_push; auto.
  - intros [[m ts] ti] [[m' ts'] ti'] (M2 & T2 & I2). cbn [fst snd] in *. subst ti'. rewrite (gatk_same (p_ovf t) m m' ts ts' ti M2 T2).
    destruct (get_array_table_key (p_ovf t) m' ts' ti) as [[[v fk] pk]| |]; cbn [rbind rsim]; auto. destruct (negb v).
    + split; cbn [fst snd]; auto. apply tw_error; auto. apply tw_set_map; auto. apply tw_set_tables; auto. apply tw_set_aerr; auto.
    + split; cbn [fst snd]; auto. apply tw_set_last; [|exact RT]. apply tw_set_map; [apply tw_set_tables; auto; apply tw_set_aerr; auto|].
      apply msame_put; [|apply hsame_refl]. rewrite (hmem_same _ _ pk M2). destruct (hmem pk m'); auto. apply msame_put; auto. apply hsame_refl.
Qed.

(** ** Readings *)
Definition both {A} (p q : P A) (t r t' r' : str) (Q : A -> A -> Prop) : Prop := forall s u, twins s u ->
  rsim (fun x y => twins (fst x) (fst y) /\ exists a b, snd x = Done r a /\ snd y = Done r' b /\ Q a b) (p s (t ++ r)) (q u (t' ++ r')).

Lemma b_weak : forall A (p q : P A) t r t' r' (Q Q' : A -> A -> Prop), both p q t r t' r' Q -> (forall a b, Q a b -> Q' a b) -> both p q t r t' r' Q'.
Proof.
  intros A p q t r t' r' Q Q' B W s u H. specialize (B s u H). destruct (p s (t ++ r)), (q u (t' ++ r')); cbn [rsim] in *; try contradiction; auto.
  destruct B as (B & x & y & E1 & E2 & X). split; auto. exists x, y. auto.
Qed.
Lemma b_bind : forall A B (p q : P A) (f g : A -> P B) (Q : A -> A -> Prop) (Q' : B -> B -> Prop) t x r t' x' r', both p q t (x ++ r) t' (x' ++ r') Q ->
  (forall a b, Q a b -> both (f a) (g b) x r x' r' Q') -> both (bind p f) (bind q g) (t ++ x) r (t' ++ x') r' Q'.
Proof.
  intros A B p q f g Q Q' t x r t' x' r' BP F s u H. rewrite <- !app_assoc. unfold bind. eapply rs_bind; [apply BP; eauto|].
  intros [s1 r1] [u1 r1'] (H1 & a & b & E1 & E2 & X). cbn [fst snd] in *. subst r1 r1'. apply F; auto.
Qed.
Lemma b_ret : forall A (a b : A) (Q : A -> A -> Prop) r r', Q a b -> both (ret a) (ret b) [] r [] r' Q.
Proof. intros A a b Q r r' X s u H. cbn. split; auto. exists a, b. auto. Qed.
Lemma b_ok : forall A (p q : P A) (a b : A) (Q : A -> A -> Prop) t r t' r', (forall s, p s (t ++ r) = Ok (s, Done r a)) -> (forall s, q s (t' ++ r') = Ok (s, Done r' b)) -> Q a b ->
  both p q t r t' r' Q.
Proof. intros A p q a b Q t r t' r' E1 E2 X s u H. rewrite E1, E2. cbn. split; auto. exists a, b. auto. Qed.
Lemma b_complete : forall A (p q : P A) t r t' r' Q, both p q t r t' r' Q -> both (complete p) (complete q) t r t' r' Q.
Proof.
  intros A p q t r t' r' Q B s u H. unfold complete. eapply rs_bind; [apply B; eauto|]. intros [s1 r1] [u1 r1'] (H1 & a & b & E1 & E2 & X). cbn [fst snd] in *. subst.
  cbn. split; auto. exists a, b. auto.
Qed.
Lemma b_opt : forall A (p q : P A) t r t' r' (Q : A -> A -> Prop), both p q t r t' r' Q ->
  both (opt p) (opt q) t r t' r' (fun o o' => exists a b, o = Some a /\ o' = Some b /\ Q a b).
Proof.
  intros A p q t r t' r' Q B s u H. unfold opt. eapply rs_bind; [apply B; eauto|]. intros [s1 r1] [u1 r1'] (H1 & a & b & E1 & E2 & X). cbn [fst snd] in *. subst.
  cbn. split; auto. exists (Some a), (Some b). repeat split; auto. eauto.
Qed.
Lemma b_alt : forall A (p q p2 q2 : P A) t r t' r' Q, both p q t r t' r' Q -> both (alt p p2) (alt q q2) t r t' r' Q.
Proof.
  intros A p q p2 q2 t r t' r' Q B s u H. unfold alt. eapply rs_bind; [apply B; eauto|]. intros [s1 r1] [u1 r1'] (H1 & a & b & E1 & E2 & X). cbn [fst snd] in *. subst.
  cbn. split; auto. exists a, b. auto.
Qed.
Lemma b_skip : forall A (p q p2 q2 : P A) t r t' r' Q, (forall s, p s (t ++ r) = Ok (s, Error)) -> (forall s, q s (t' ++ r') = Ok (s, Error)) ->
  both p2 q2 t r t' r' Q -> both (alt p p2) (alt q q2) t r t' r' Q.
Proof. intros A p q p2 q2 t r t' r' Q E1 E2 B s u H. unfold alt. rewrite E1, E2. cbn [rbind]. apply B; auto. Qed.
Lemma b_act : forall A (f g : pst -> res (pst * A)) (Q : A -> A -> Prop) r r', (forall s u, twins s u -> rsim (asame Q) (f s) (g u)) -> both (act f) (act g) [] r [] r' Q.
Proof.
  intros A f g Q r r' F s u H. unfold act. eapply rs_bind; [apply F; eauto|]. intros [s1 a] [u1 b] [H1 X]. cbn in *. split; auto. exists a, b. auto.
Qed.
Lemma b_cell : forall A (p q : P A) (f : A -> tval) (Q : A -> A -> Prop) (Q' : cell -> cell -> Prop) t r t' r', both p q t r t' r' Q ->
  (forall a b i j, Q a b -> Q' (Cell i (f a)) (Cell j (f b))) -> both (pcell p f) (pcell q f) t r t' r' Q'.
Proof.
  intros A p q f Q Q' t r t' r' B W. unfold pcell. rewrite <- (app_nil_r t), <- (app_nil_r t'). eapply b_bind; [rewrite !app_nil_l; apply b_complete; eauto|].
  intros a b X. apply b_act. intros s u H. cbn. split; cbn; auto. apply tw_set_next; auto.
Qed.
Lemma b_loop : forall A (p q : P A) (Q : A -> A -> Prop) (QL QL' : list A -> list A -> Prop) t x r t' x' r' n m, t <> [] -> t' <> [] ->
  both p q t (x ++ r) t' (x' ++ r') Q -> both (many_loop n p) (many_loop m q) x r x' r' QL -> (forall a b l l', Q a b -> QL l l' -> QL' (a :: l) (b :: l')) ->
  both (many_loop (S n) p) (many_loop (S m) q) (t ++ x) r (t' ++ x') r' QL'.
Proof.
  intros A p q Q QL QL' t x r t' x' r' n m N N' BP BL W s u H. rewrite <- !app_assoc. cbn [many_loop].
  assert (NE : forall t x r : str, t <> [] -> Nat.eqb (length (x ++ r)) (length (t ++ x ++ r)) = false).
  { clear. intros t x r N. apply Nat.eqb_neq. rewrite (app_length t). destruct t; [congruence|]. cbn [length]. lia. }
  destruct (t ++ x ++ r) as [|c0 i0] eqn:I1; [destruct t; [congruence|discriminate]|]. rewrite <- I1. clear c0 i0 I1.
  destruct (t' ++ x' ++ r') as [|c0 i0] eqn:I1; [destruct t'; [congruence|discriminate]|]. rewrite <- I1. clear c0 i0 I1.
  eapply rs_bind; [apply BP; eauto|]. intros [s1 r1] [u1 r1'] (H1 & a & b & E1 & E2 & X). cbn [fst snd] in *. subst r1 r1'. rewrite !NE by auto.
  eapply rs_bind; [apply BL; eauto|]. intros [s2 r2] [u2 r2'] (H2 & l & l' & E1 & E2 & XL). cbn [fst snd] in *. subst r2 r2'. cbn. split; auto. exists (a :: l), (b :: l'). auto.
Qed.
Lemma b_many0 : forall A (p q : P A) t r t' r' Q, both (many_loop (S (length (t ++ r))) p) (many_loop (S (length (t' ++ r'))) q) t r t' r' Q -> both (many0 p) (many0 q) t r t' r' Q.
Proof. intros A p q t r t' r' Q B s u H. unfold many0. apply B; auto. Qed.
Lemma b_tag : forall t r r', both (tag t) (tag t) t r t r' (fun _ _ => True).
Proof. intros t r r'. eapply b_ok; auto using tag_ok. Qed.
Lemma b_ws : forall w w' r r', blanks w -> blanks w' -> no_blank r -> no_blank r' -> both ws ws w r w' r' (fun _ _ => True).
Proof. intros. eapply b_ok; auto; intros; apply ws_ok; auto. Qed.
Lemma b_key : forall k r r', key_name k -> match r with [] => True | c :: _ => ~ bare_char c end -> match r' with [] => True | c :: _ => ~ bare_char c end ->
  both key_p key_p k r k r' (fun a b => a = k /\ b = k).
Proof. intros k r r' K R R' s u H. rewrite !key_p_bare by auto. cbn. split; [apply tw_push_key; auto|]. exists k, k. auto. Qed.
Lemma b_gap : forall g g' r r', gap g -> gap g' -> solid r -> solid r' -> both comment_or_nls comment_or_nls g r g' r' (fun _ _ => True).
Proof.
  intros g g' r r' G G' S S' s u H. destruct (gap_ok g r s G S) as (l & E & _). destruct (gap_ok g' r' u G' S') as (l' & E' & _). rewrite E, E'. cbn. split; auto. exists l, l'. auto.
Qed.
Lemma b_tail : forall A (f g : option wssep -> list comment_or_newlines -> P A) Q y r y' r', tail_text y -> tail_text y' -> solid r -> solid r' -> head_not 44 r -> head_not 44 r' ->
  (forall sep nls sep' nls', both (f sep nls) (g sep' nls') [] r [] r' Q) ->
  both (bind (opt (complete array_sep)) (fun sep => bind (complete comment_or_nls) (fun nls => f sep nls)))
       (bind (opt (complete array_sep)) (fun sep => bind (complete comment_or_nls) (fun nls => g sep nls))) y r y' r' Q.
Proof.
  intros A f g Q y r y' r' Y Y' S S' N N' F s u H. destruct (tail_ok y r s Y S N) as (sep & nls & y2 & E1 & E2 & _). destruct (tail_ok y' r' u Y' S' N') as (sep' & nls' & y2' & E1' & E2' & _).
  rewrite (bind_ok _ _ _ _ _ _ _ E1), (bind_ok _ _ _ _ _ _ _ E2), (bind_ok _ _ _ _ _ _ _ E1'), (bind_ok _ _ _ _ _ _ _ E2'). apply F; auto.
Qed.

(** ** Values *)
Definition says (v : value) (c : cell) : Prop := to_val c.(c_val) = Ok v.
Definition both_value (p q : P cell) (v : value) (t t' : str) : Prop := forall r r', ends_value r -> ends_value r' -> both p q t r t' r' (fun c d => says v c /\ says v d).
Lemma says_same : forall v c d, says v c /\ says v d -> csame c d.
Proof. intros v c d [A B]. eapply csame_of; eauto. Qed.

Lemma b_scalar : forall p q v t, scalar v t -> both_value (val_ p) (val_ q) v t t.
Proof.
  intros p q v t S r r' R R' s u H. rewrite !(val_scalar_ _ v t) by auto. cbn. split.
  - unfold after_scalar. apply tw_set_next, tw_set_line; auto.
  - eexists. eexists. split; [reflexivity|]. split; [reflexivity|]. split; eapply to_val_of; eauto.
Qed.
Lemma b_date : forall p q d, datetime_digits d -> both_value (val_ p) (val_ q) (VDateTime d) (datetime_src d) (datetime_src d).
Proof.
  intros p q d D r r' R R'. unfold val_.
  assert (HD : forall r, match datetime_src d ++ r with [] => False | c :: _ => c = 43 \/ c = 45 \/ digit c end).
  { clear - D. intros r. destruct D as [([Y L] & _) _]. unfold datetime_src. rewrite <- app_assoc.
    destruct (d_year (dt_date d)) as [|c y]; [discriminate|]. inversion Y; subst. cbn [app]. auto. }
  apply b_skip; [intros s; apply arr_err; eapply num_head_not; [apply HD|unfold digit; lia..]..|].
  apply b_skip; [intros s; apply inl_err; eapply num_head_not; [apply HD|unfold digit; lia..]..|].
  apply b_alt. eapply b_cell with (Q := fun a b => a = d /\ b = d); [|intros a b i j [-> ->]; split; reflexivity].
  intros s u H. unfold date_time. rewrite datetime_src_show. rewrite !dti_ok by (auto; apply ends_dt_stop; auto). cbn [rbind].
  destruct (datetime_validate d); [cbn; split; auto; exists d, d; auto|].
  rewrite (tw_ovf _ _ H), (tw_tindex _ _ H), (tw_keychain _ _ H), (full_same _ _ _ _ _ _ _ (tw_map _ _ H) (tw_tables _ _ H)).
  destruct (get_full_key _ _ _ _ _) as [[[v fk] pk]| |]; cbn [rbind rsim]; auto. cbn [fst snd]. split; [|exists d, d; auto].
  apply tw_error; auto. cbn [lineless]. rewrite !app_length, !Nat.add_sub, !firstn_app, !Nat.sub_diag, !firstn_all. reflexivity.
Qed.

Definition esay (v : value) (av : array_value) : Prop := says v av.(av_val).
Definition both_elems (p q : P cell) (vs : list value) (t t' : str) : Prop := forall n m r r', (length (t ++ lit "]" ++ r) < n)%nat -> (length (t' ++ lit "]" ++ r') < m)%nat ->
  both (many_loop n (array_value_ p)) (many_loop m (array_value_ q)) t (lit "]" ++ r) t' (lit "]" ++ r') (fun l l' => Forall2 esay vs l /\ Forall2 esay vs l').
Lemma close_loop : forall pv n s r, (length (lit "]" ++ r) < n)%nat -> (forall s r, pv s (lit "]" ++ r) = Ok (s, Error)) ->
  many_loop n (array_value_ pv) s (lit "]" ++ r) = Ok (s, Done (lit "]" ++ r) []).
Proof.
  intros pv n s r L CL. destruct n; [lia|]. cbn [many_loop]. change (lit "]" ++ r) with (93 :: r). cbv iota. change (93 :: r) with (lit "]" ++ r).
  unfold array_value_. rewrite (bind_err _ _ _ _ _ (CL s r)). reflexivity.
Qed.
Lemma elems_view : forall v vs t, delems (v :: vs) t -> exists t1 y r0, t = t1 ++ y ++ r0 /\ denotes v t1 /\ tail_text y /\ delems vs r0 /\
  (forall r, ends_value (y ++ r0 ++ lit "]" ++ r)).
Proof.
  intros v vs t H. inversion H as [|v0 t1 g D G E1 E2|v0 t1 w g vs0 r0 D W G E E1 E2]; subst.
  - exists t1, g, []. rewrite app_nil_r. repeat split; auto; [left; auto|constructor|]. intros r. apply gap_ends; auto. simpl; tauto.
  - exists t1, (w ++ lit "," ++ g), r0. rewrite <- !app_assoc. repeat split; auto; [right; eauto|]. intros r. rewrite <- !app_assoc.
    apply (blanks_app_head (fun c => In c [9; 10; 13; 32; 35; 44; 93; 125])); auto; simpl; tauto.
Qed.
Lemma b_elems : forall vs, Forall (fun v => forall t t', denotes v t -> denotes v t' -> forall n m, (length t < n)%nat -> (length t' < m)%nat -> both_value (val n) (val m) v t t') vs ->
  forall t t', delems vs t -> delems vs t' -> forall n m, (length t < n)%nat -> (length t' < m)%nat -> both_elems (val n) (val m) vs t t'.
Proof.
  induction vs as [|v vs IH]; intros F t t' D D' n m L L' x y r r' LX LY.
  - inversion D; subst. inversion D'; subst. intros s u H. cbn [app] in *. destruct n; [lia|]. destruct m; [lia|].
    rewrite !close_loop; auto; try (intros; apply val_close). cbn. split; auto. eexists. eexists. split; [reflexivity|]. split; [reflexivity|]. split; constructor.
  - inversion F as [|? ? FV FVS]; subst. apply elems_view in D as (t1 & z & r0 & -> & D1 & Z & D2 & EV). apply elems_view in D' as (t1' & z' & r0' & -> & D1' & Z' & D2' & EV').
    destruct x as [|x]; [lia|]. destruct y as [|y]; [lia|]. rewrite !(app_assoc _ z), !(app_assoc _ z').
    pose proof (vhead_solid _ (denotes_head _ _ D1)) as (_ & _ & _ & TN). pose proof (vhead_solid _ (denotes_head _ _ D1')) as (_ & _ & _ & TN').
    destruct (delems_head vs r0 r D2) as [S1 N1]. destruct (delems_head vs r0' r' D2') as [S1' N1'].
    rewrite !app_length in *.
    eapply b_loop with (Q := fun a b => esay v a /\ esay v b) (QL := fun l l' => Forall2 esay vs l /\ Forall2 esay vs l').
    + destruct t1; [congruence|discriminate].
    + destruct t1'; [congruence|discriminate].
    + unfold array_value_. eapply b_bind; [apply FV; auto; lia|]. intros c d CD. apply b_tail; auto. intros sep nls sep' nls'. apply b_act. intros s u H.
      pose proof (value_same s u c d sep sep' nls nls' H (says_same _ _ _ CD)) as VS.
      destruct (array_value_act c sep nls s) as [[s1 a]| |] eqn:E1, (array_value_act d sep' nls' u) as [[u1 b]| |] eqn:E2; cbn [rsim] in *; try contradiction; auto.
      destruct VS as [H1 _]. split; [exact H1|]. cbn [fst snd]. destruct CD as [C1 D3].
      apply value_gives in E1 as [-> _]. apply value_gives in E2 as [-> _]. split; [exact C1|exact D3].
    + apply IH; auto; try lia; rewrite !app_length; (destruct t1; [congruence|]); (destruct t1'; [congruence|]); cbn [length] in *; lia.
    + intros a b l l' [A1 A2] [B1 B2]. split; constructor; auto.
Qed.
Lemma esay_all : forall vs avs, Forall2 esay vs avs -> rmap (fun av : array_value => to_val av.(av_val).(c_val)) avs = Ok vs.
Proof. induction 1 as [|? ? ? ? A F IH]; [reflexivity|]. apply rmap_eq; auto. Qed.
Lemma b_array : forall p q vs g g' t t', both_elems p q vs t t' -> gap g -> gap g' -> (forall r, solid (t ++ lit "]" ++ r)) -> (forall r, solid (t' ++ lit "]" ++ r)) ->
  both_value (val_ p) (val_ q) (VArray vs) (lit "[" ++ g ++ t ++ lit "]") (lit "[" ++ g' ++ t' ++ lit "]").
Proof.
  intros p q vs g g' t t' B G G' S S' r r' R R'. unfold val_. apply b_alt.
  eapply b_cell with (Q := fun a b => to_val a = Ok (VArray vs) /\ to_val b = Ok (VArray vs)); [|intros a b i j X; exact X].
  assert (BI : both (array_internal_ p) (array_internal_ q) (lit "[" ++ g ++ t ++ lit "]") r (lit "[" ++ g' ++ t' ++ lit "]") r' (fun a b => to_val a = Ok (VArray vs) /\ to_val b = Ok (VArray vs))).
  { unfold array_internal_. eapply b_bind; [apply b_tag|]. intros _ _ _.
    eapply b_bind; [apply b_gap; auto; rewrite <- app_assoc; auto|]. intros n1 n1' _.
    eapply b_bind; [unfold array_values_; apply b_many0, B; lia|]. intros l l' [A1 A2].
    eapply (b_bind _ _ _ _ _ _ (fun _ _ => True) _ [] (lit "]") r [] (lit "]") r'); [apply b_gap; try apply (G_ws [] BL_nil); simpl; lia|]. intros n2 n2' _.
    eapply (b_bind _ _ _ _ _ _ (fun _ _ => True) _ (lit "]") [] r (lit "]") [] r'); [apply b_tag|]. intros _ _ _. apply b_ret.
    split; cbn [to_val]; [rewrite (esay_all _ _ A1)|rewrite (esay_all _ _ A2)]; reflexivity. }
  intros s u H. unfold array_. rewrite (tw_atypes _ _ H). eapply rs_bind; [apply BI, tw_push_key, tw_set_atypes; eauto|].
  intros [s1 r1] [u1 r1'] (H1 & a & b & E1 & E2 & X). cbn [fst snd] in *. subst. cbn. split; [|exists a, b; auto].
  apply tw_pop_key in H1. change (p_atypes s1) with (p_atypes (pop_key s1)). change (p_atypes u1) with (p_atypes (pop_key u1)). rewrite (tw_atypes _ _ H1). apply tw_set_atypes; auto.
Qed.

Definition fsay (kv : str * value) (tk : table_keyval) : Prop := fkey tk = fst kv /\ to_val (fval tk).(c_val) = Ok (snd kv).
Lemma fsay_all : forall kvs tks w, Forall2 fsay kvs tks -> to_val (TInlineTable tks w) = Ok (VInlineTable kvs).
Proof.
  intros kvs tks w F. apply fields_to_val.
  - induction F as [|a b l l' (A & B) F IH]; cbn [map]; [reflexivity|congruence].
  - induction F as [|a b l l' (A & B) F IH]; constructor; auto.
Qed.
Lemma b_keyval : forall p q k w1 w2 w1' w2' v t t' r r', both_value p q v t t' -> key_name k -> blanks w1 -> blanks w2 -> blanks w1' -> blanks w2' ->
  no_blank (t ++ r) -> no_blank (t' ++ r') -> ends_value r -> ends_value r' ->
  both (keyval_p_ p) (keyval_p_ q) (k ++ (w1 ++ lit "=" ++ w2) ++ t) r (k ++ (w1' ++ lit "=" ++ w2') ++ t') r'
    (fun a b => a.(kv_key) = k /\ b.(kv_key) = k /\ says v a.(kv_val) /\ says v b.(kv_val)).
Proof.
  intros p q k w1 w2 w1' w2' v t t' r r' B K W1 W2 W1' W2' N N' R R'. unfold keyval_p_.
  eapply b_bind.
  { apply b_key; auto; rewrite <- !app_assoc; apply (blanks_app_head (fun c => ~ bare_char c)); auto; unfold bare_char; simpl; lia. }
  intros k1 k2 [-> ->].
  eapply (b_bind _ _ _ _ _ _ (fun _ _ => True)).
  { eapply b_ok; [intros s; rewrite <- !app_assoc; apply keyval_sep_ok; auto|intros s; rewrite <- !app_assoc; apply keyval_sep_ok; auto|exact I]. }
  intros sep sep' _. rewrite <- (app_nil_r t), <- (app_nil_r t'). eapply b_bind; [rewrite !app_nil_l; apply B; auto|]. intros c d CD. apply b_act. intros s u H.
  pose proof (keyval_same s u k sep sep' c d H (says_same _ _ _ CD)) as VS.
  destruct (keyval_act k sep c s) as [[s1 a]| |] eqn:E1, (keyval_act k sep' d u) as [[u1 b]| |] eqn:E2; cbn [rsim] in *; try contradiction; auto.
  destruct VS as [H1 _]. split; [exact H1|]. apply keyval_gives in E1 as [-> _]. apply keyval_gives in E2 as [-> _]. cbn. destruct CD. auto.
Qed.
Lemma fields_view : forall k v l t, dfields ((k, v) :: l) t -> exists w1 w2 t1 y r0, t = (k ++ (w1 ++ lit "=" ++ w2) ++ t1) ++ y ++ r0 /\ key_name k /\ blanks w1 /\ blanks w2 /\
  denotes v t1 /\ tail_text y /\ dfields l r0 /\ (forall r, ends_value (y ++ r0 ++ lit "}" ++ r)).
Proof.
  intros k v l t H. inversion H as [|k0 w1 w2 v0 t1 g K W1 W2 D G E1 E2|k0 w1 w2 v0 t1 w g l0 r0 K W1 W2 D W G F E1 E2]; subst.
  - exists w1, w2, t1, g, []. split; [rewrite app_nil_r, <- !app_assoc; reflexivity|]. repeat split; auto; [left; auto|constructor|]. intros r. apply gap_ends; auto. simpl; tauto.
  - exists w1, w2, t1, (w ++ lit "," ++ g), r0. split; [rewrite <- !app_assoc; reflexivity|]. repeat split; auto; [right; eauto|]. intros r. rewrite <- !app_assoc.
    apply (blanks_app_head (fun c => In c [9; 10; 13; 32; 35; 44; 93; 125])); auto; simpl; tauto.
Qed.
Definition both_fields (p q : P cell) (kvs : list (str * value)) (t t' : str) : Prop := forall n m r r', (length (t ++ lit "}" ++ r) < n)%nat -> (length (t' ++ lit "}" ++ r') < m)%nat ->
  both (many_loop n (table_keyval_p_ p)) (many_loop m (table_keyval_p_ q)) t (lit "}" ++ r) t' (lit "}" ++ r') (fun l l' => Forall2 fsay kvs l /\ Forall2 fsay kvs l').
Lemma brace_loop : forall pv n s r, (length (lit "}" ++ r) < n)%nat -> many_loop n (table_keyval_p_ pv) s (lit "}" ++ r) = Ok (s, Done (lit "}" ++ r) []).
Proof.
  intros pv n s r L. destruct n; [lia|]. cbn [many_loop]. change (lit "}" ++ r) with (125 :: r). cbv iota.
  unfold table_keyval_p_, keyval_p_. erewrite bind_err; [|apply bind_err, key_p_err; unfold bare_char; lia]. reflexivity.
Qed.
Lemma b_fields : forall kvs, Forall (fun kv => forall t t', denotes (snd kv) t -> denotes (snd kv) t' -> forall n m, (length t < n)%nat -> (length t' < m)%nat -> both_value (val n) (val m) (snd kv) t t') kvs ->
  forall t t', dfields kvs t -> dfields kvs t' -> forall n m, (length t < n)%nat -> (length t' < m)%nat -> both_fields (val n) (val m) kvs t t'.
Proof.
  induction kvs as [|[k v] kvs IH]; intros F t t' D D' n m L L' x y r r' LX LY.
  - inversion D; subst. inversion D'; subst. intros s u H. cbn [app] in *. rewrite !brace_loop; auto. cbn. split; auto. eexists. eexists. split; [reflexivity|]. split; [reflexivity|]. split; constructor.
  - inversion F as [|? ? FV FVS]; subst. cbn [snd] in FV.
    apply fields_view in D as (w1 & w2 & t1 & z & r0 & -> & K & W1 & W2 & D1 & Z & D2 & EV). apply fields_view in D' as (w1' & w2' & t1' & z' & r0' & -> & _ & W1' & W2' & D1' & Z' & D2' & EV').
    destruct x as [|x]; [lia|]. destruct y as [|y]; [lia|]. rewrite !(app_assoc _ z), !(app_assoc _ z').
    destruct (dfields_head kvs r0 r D2) as (S1 & N1 & _). destruct (dfields_head kvs r0' r' D2') as (S1' & N1' & _). pose proof (key_ne k K) as KN.
    repeat rewrite app_length in L; repeat rewrite app_length in L'; repeat rewrite app_length in LX; repeat rewrite app_length in LY.
    eapply b_loop with (Q := fun a b => fsay (k, v) a /\ fsay (k, v) b) (QL := fun l l' => Forall2 fsay kvs l /\ Forall2 fsay kvs l').
    + destruct k; [congruence|discriminate].
    + destruct k; [congruence|discriminate].
    + unfold table_keyval_p_. eapply b_bind.
      { apply b_keyval with (v := v); auto; [apply FV; auto; lia| |].
        - destruct (vhead_solid _ (vhead_app _ (z ++ r0 ++ lit "}" ++ r) (denotes_head _ _ D1))) as (_ & _ & A & _). auto.
        - destruct (vhead_solid _ (vhead_app _ (z' ++ r0' ++ lit "}" ++ r') (denotes_head _ _ D1'))) as (_ & _ & A & _). auto. }
      intros a b (A1 & A2 & A3 & A4). apply b_tail; auto. intros sep nls sep' nls'. apply b_ret. split; split; cbn; auto.
    + apply IH; auto; try lia; repeat rewrite app_length; (destruct k; [congruence|]); cbn [length] in *; lia.
    + intros a b l l' [A1 A2] [B1 B2]. split; constructor; auto.
Qed.
Lemma b_inline : forall p q kvs w w' t t', both_fields p q kvs t t' -> blanks w -> blanks w' -> (forall r, no_blank (t ++ lit "}" ++ r)) -> (forall r, no_blank (t' ++ lit "}" ++ r)) ->
  both_value (val_ p) (val_ q) (VInlineTable kvs) (lit "{" ++ w ++ t ++ lit "}") (lit "{" ++ w' ++ t' ++ lit "}").
Proof.
  intros p q kvs w w' t t' B W W' S S' r r' R R'. unfold val_. apply b_skip; [intros s; apply arr_err; simpl; lia..|]. apply b_alt.
  eapply b_cell with (Q := fun a b => to_val a = Ok (VInlineTable kvs) /\ to_val b = Ok (VInlineTable kvs)); [|intros a b i j X; exact X].
  unfold inline_table_. eapply b_bind; [apply b_tag|]. intros _ _ _. eapply b_bind; [apply b_ws; auto; rewrite <- app_assoc; auto|]. intros x1 x1' _.
  eapply b_bind; [apply b_opt, b_complete; unfold inline_table_keyvals_; apply b_many0, B; lia|]. intros o o' (l & l' & -> & -> & A1 & A2).
  eapply (b_bind _ _ _ _ _ _ (fun _ _ => True) _ [] (lit "}") r [] (lit "}") r'); [apply b_ws; try constructor; simpl; lia|]. intros x2 x2' _.
  eapply (b_bind _ _ _ _ _ _ (fun _ _ => True) _ (lit "}") [] r (lit "}") [] r'); [apply b_tag|]. intros _ _ _. apply b_ret. split; apply fsay_all; auto.
Qed.
Lemma scalar_one : forall v t t', scalar v t -> denotes v t' -> t = t'.
Proof. intros v t t' S D. destruct D as [v t' S'|d D| |]; inversion S; subst; try (inversion S'; subst); reflexivity. Qed.
Lemma b_value : forall v t t', denotes v t -> denotes v t' -> forall n m, (length t < n)%nat -> (length t' < m)%nat -> both_value (val n) (val m) v t t'.
Proof.
  assert (SC : forall v, (forall vs, v <> VArray vs) -> (forall kvs, v <> VInlineTable kvs) ->
    forall t t', denotes v t -> denotes v t' -> forall n m, (length t < n)%nat -> (length t' < m)%nat -> both_value (val n) (val m) v t t').
  { intros v NA NI t t' D D' n m L L'. destruct n; [lia|]. destruct m; [lia|]. cbn [val]. destruct D as [v t S|d D|vs g t G E|kvs w t W E].
    - rewrite <- (scalar_one _ _ _ S D'). apply b_scalar; auto.
    - inversion D' as [v t0 S|d0 D0| |]; subst; [rewrite (scalar_one _ _ _ S (Dn_date d D)); apply b_date; auto|apply b_date; auto].
    - exfalso. eapply NA; eauto.
    - exfalso. eapply NI; eauto. }
  induction v as [| | | | |vs IH|kvs IH] using value_ind'; try (apply SC; intros; discriminate).
  - intros t t' D D' n m L L'. destruct n; [lia|]. destruct m; [lia|]. inversion D as [v0 t0 S| |vs0 g t0 G E X1 X2|]; subst; [inversion S|].
    inversion D' as [v0 t0' S| |vs0 g' t0' G' E' X1 X2|]; subst; [inversion S|]. repeat rewrite app_length in L; repeat rewrite app_length in L'. simpl in L, L'. cbn [val].
    apply b_array; auto; [apply b_elems; auto; lia|intros r; eapply delems_head; eauto..].
  - intros t t' D D' n m L L'. destruct n; [lia|]. destruct m; [lia|]. inversion D as [v0 t0 S| | |vs0 g t0 G E X1 X2]; subst; [inversion S|].
    inversion D' as [v0 t0' S| | |vs0 g' t0' G' E' X1 X2]; subst; [inversion S|]. repeat rewrite app_length in L; repeat rewrite app_length in L'. simpl in L, L'. cbn [val].
    apply b_inline; auto; [apply b_fields; auto; lia|intros r; eapply dfields_head; eauto..].
Qed.

(** ** Lines *)
Lemma b_val_p : forall v t t', denotes v t -> denotes v t' -> both_value val_p val_p v t t'.
Proof. intros v t t' D D' r r' R R' s u H. unfold val_p. apply (b_value v t t' D D'); auto; rewrite app_length; lia. Qed.
Lemma push_keys_same : forall ks s u, twins s u -> twins (fold_left (fun s k => push_key (KStr k) s) ks s) (fold_left (fun s k => push_key (KStr k) s) ks u).
Proof. induction ks as [|k ks IH]; intros s u H; [exact H|]. cbn [fold_left]. apply IH, tw_push_key; auto. Qed.
Notation mores_ok := (Forall (fun x : str * str * str => blanks (fst (fst x)) /\ blanks (snd (fst x)) /\ key_name (snd x))).
Lemma b_subkeys : forall m m' w w' r r', mores_ok m -> mores_ok m' -> map snd m = map snd m' -> blanks w -> blanks w' ->
  both table_subkeys table_subkeys (concat (map more_text m)) (w ++ lit "]" ++ r) (concat (map more_text m')) (w' ++ lit "]" ++ r') (fun l l' => map wk_key l = map wk_key l').
Proof.
  intros m m' w w' r r' F F' E W W' s u H. unfold table_subkeys, many0.
  destruct (subkeys_loop m s (S (length (concat (map more_text m) ++ w ++ lit "]" ++ r))) w r F W) as (ks & E1 & N1); [lia|].
  destruct (subkeys_loop m' u (S (length (concat (map more_text m') ++ w' ++ lit "]" ++ r'))) w' r' F' W') as (ks' & E2 & N2); [lia|].
  rewrite E1, E2. cbn. split; [rewrite E; apply push_keys_same; auto|]. exists ks, ks'. repeat split; auto. congruence.
Qed.
Lemma not_double : forall w1 n T, blanks w1 -> key_name n -> forall s, complete array_table s (lit "[" ++ w1 ++ n ++ T) = Ok (s, Error).
Proof.
  intros w1 n T W1 K s. unfold array_table. assert (S : starts_with (lit "[[") (lit "[" ++ w1 ++ n ++ T) = false).
  { pose proof (bare_blank_head w1 n T (fun c => c <> 91) W1 K) as Q.
    destruct (w1 ++ n ++ T) as [|c x]; [exfalso; apply Q; try lia; unfold bare_char; intros; lia|].
    change (lit "[" ++ c :: x) with (91 :: c :: x). change (starts_with (lit "[[") (91 :: c :: x)) with ((91 =? 91) && ((91 =? c) && starts_with [] x)).
    destruct (N.eqb_spec 91 c); [|reflexivity]. exfalso. assert (c <> 91); [|congruence]. apply Q; try lia. unfold bare_char. intros; lia. }
  apply complete_err. destruct (tag_fail _ s _ S) as [X|X].
  - left. apply bind_err; exact X.
  - right. apply bind_inc; exact X.
Qed.
Lemma b_std : forall w1 n m w2 w1' m' w2' r r', blanks w1 -> blanks w1' -> key_name n -> mores_ok m -> mores_ok m' -> map snd m = map snd m' -> blanks w2 -> blanks w2' ->
  both table_p table_p (lit "[" ++ w1 ++ n ++ concat (map more_text m) ++ w2 ++ lit "]") r (lit "[" ++ w1' ++ n ++ concat (map more_text m') ++ w2' ++ lit "]") r' (fun _ _ => True).
Proof.
  intros w1 n m w2 w1' m' w2' r r' W1 W1' K F F' E W2 W2'. unfold table_p. apply b_skip; [intros s; rewrite <- !app_assoc; apply not_double; auto..|].
  apply b_complete. unfold std_table. eapply b_bind; [apply b_tag|]. intros _ _ _.
  eapply b_bind; [apply b_ws; auto; rewrite <- ?app_assoc; apply key_no_blank; auto|]. intros x1 x1' _.
  eapply b_bind; [apply b_key; auto; rewrite <- ?app_assoc; apply more_stop; auto|]. intros k1 k1' [-> ->].
  eapply b_bind; [rewrite <- !app_assoc; apply b_subkeys; auto|]. intros ks ks' KS.
  eapply b_bind; [apply b_ws; auto; simpl; lia|]. intros x2 x2' _. eapply (b_bind _ _ _ _ _ _ (fun _ _ => True) _ (lit "]") [] r (lit "]") [] r'); [apply b_tag|]. intros _ _ _.
  apply b_act. intros s u H. apply std_same; auto.
Qed.
Lemma b_arr : forall w1 n m w2 w1' m' w2' r r', blanks w1 -> blanks w1' -> key_name n -> mores_ok m -> mores_ok m' -> map snd m = map snd m' -> blanks w2 -> blanks w2' ->
  both table_p table_p (lit "[[" ++ w1 ++ n ++ concat (map more_text m) ++ w2 ++ lit "]]") r (lit "[[" ++ w1' ++ n ++ concat (map more_text m') ++ w2' ++ lit "]]") r' (fun _ _ => True).
Proof.
  intros w1 n m w2 w1' m' w2' r r' W1 W1' K F F' E W2 W2'. unfold table_p. apply b_alt, b_complete. unfold array_table. eapply b_bind; [apply b_tag|]. intros _ _ _.
  eapply b_bind; [apply b_ws; auto; rewrite <- ?app_assoc; apply key_no_blank; auto|]. intros x1 x1' _.
  change (lit "]]") with (lit "]" ++ lit "]") at 1 2.
  eapply b_bind; [apply b_key; auto; rewrite <- ?app_assoc; apply more_stop; auto|]. intros k1 k1' [-> ->].
  eapply b_bind; [rewrite <- !app_assoc; apply b_subkeys; auto|]. intros ks ks' KS.
  eapply b_bind; [apply b_ws; auto; simpl; lia|]. intros x2 x2' _. eapply (b_bind _ _ _ _ _ _ (fun _ _ => True) _ (lit "]]") [] r (lit "]]") [] r'); [apply b_tag|]. intros _ _ _.
  apply b_act. intros s u H. apply arr_same; auto.
Qed.
Lemma b_end : forall w c w' c' r r' A (f g : str -> option str -> A), blanks w -> blanks w' -> com_ok c -> com_ok c' -> line_start r -> line_start r' ->
  both (bind ws (fun w2 => bind (opt (complete comment)) (fun c => ret (f w2 c)))) (bind ws (fun w2 => bind (opt (complete comment)) (fun c => ret (g w2 c))))
    (w ++ com_text c) r (w' ++ com_text c') r' (fun _ _ => True).
Proof.
  assert (X : forall w c r A (f : str -> option str -> A) s, blanks w -> com_ok c -> line_start r ->
    bind ws (fun w2 => bind (opt (complete comment)) (fun c => ret (f w2 c))) s ((w ++ com_text c) ++ r) = Ok (s, Done r (f w c))).
  { intros w c r A f s W C R. rewrite <- app_assoc. rewrite (bind_ok _ _ _ _ _ _ _ (ws_ok w _ s W (com_no_blank c r R))).
    rewrite (bind_ok _ _ _ _ _ _ _ (opt_comment c r s C R)). reflexivity. }
  intros w c w' c' r r' A f g W W' C C' R R'. eapply b_ok; [intros s; apply X; auto|intros s; apply X; auto|exact I].
Qed.
Lemma blank_line : forall s w c r, blanks w -> com_ok c -> line_start r -> exists e, expression_p s ((w ++ com_text c) ++ r) = Ok (s, Done r e).
Proof. intros s w c r W C R. pose proof (istep_blank s w c (conj W C) r R) as E. cbn [item_text item_expr] in E. rewrite E. eauto. Qed.
Lemma b_line : forall d d' r r', formed d -> formed d' -> content d = content d' -> line_start r -> line_start r' ->
  both expression_p expression_p (tline_text d) r (tline_text d') r' (fun _ _ => True).
Proof.
  intros d d' r r' F F' E R R'.
  destruct d as [[w c|w0 k w1 w2 v t w3 c|w0 w1 n m w2 w3 c]|w0 w1 n m w2 w3 c], d' as [[w' c'|w0' k' w1' w2' v' t' w3' c'|w0' w1' n' m' w2' w3' c']|w0' w1' n' m' w2' w3' c'];
    cbn [content] in E; try discriminate E; cbn [formed tline_ok hline_ok tline_text hline_text] in *.
  - intros s u H. destruct F as [W C], F' as [W' C']. destruct (blank_line s w c r W C R) as (e & E1). destruct (blank_line u w' c' r' W' C' R') as (e' & E2).
    rewrite E1, E2. cbn. split; auto. exists e, e'. auto.
  - injection E as <- <-. destruct F as (W0 & K & W1 & W2 & D & W3 & C), F' as (W0' & _ & W1' & W2' & D' & W3' & C').
    pose proof (vhead_solid t (denotes_head v t D)) as (_ & _ & NB & TN). pose proof (vhead_solid t' (denotes_head v t' D')) as (_ & _ & NB' & TN').
    unfold expression_p. apply b_skip.
    { intros s. rewrite <- app_assoc. apply table_comment_err; auto; apply key_head in K as (c0 & u & -> & C0); unfold bare_char in C0; simpl; lia. }
    { intros s. rewrite <- app_assoc. apply table_comment_err; auto; apply key_head in K as (c0 & u & -> & C0); unfold bare_char in C0; simpl; lia. }
    apply b_alt, b_complete. unfold keyval_comment. eapply b_bind; [apply b_ws; auto; rewrite <- ?app_assoc; apply key_no_blank; auto|]. intros x0 x0' _.
    replace (k ++ w1 ++ lit "=" ++ w2 ++ t ++ w3 ++ com_text c) with ((k ++ (w1 ++ lit "=" ++ w2) ++ t) ++ w3 ++ com_text c) by (rewrite <- !app_assoc; reflexivity).
    replace (k ++ w1' ++ lit "=" ++ w2' ++ t' ++ w3' ++ com_text c') with ((k ++ (w1' ++ lit "=" ++ w2') ++ t') ++ w3' ++ com_text c') by (rewrite <- !app_assoc; reflexivity).
    eapply b_bind.
    { apply b_keyval with (v := v); auto; [apply b_val_p; auto|destruct t; [congruence|exact NB]|destruct t'; [congruence|exact NB']| |]; rewrite <- app_assoc; apply ends_after; auto. }
    intros kv kv' _. apply b_end; auto.
  - unfold head_path in E. injection E as <- E. destruct F as (W0 & W1 & K & F & W2 & W3 & C), F' as (W0' & W1' & _ & F' & W2' & W3' & C').
    unfold expression_p. apply b_alt, b_complete. unfold table_comment. eapply b_bind; [apply b_ws; auto; simpl; lia|]. intros x0 x0' _.
    replace (lit "[" ++ w1 ++ n ++ concat (map more_text m) ++ w2 ++ lit "]" ++ w3 ++ com_text c) with
      ((lit "[" ++ w1 ++ n ++ concat (map more_text m) ++ w2 ++ lit "]") ++ w3 ++ com_text c) by (rewrite <- !app_assoc; reflexivity).
    replace (lit "[" ++ w1' ++ n ++ concat (map more_text m') ++ w2' ++ lit "]" ++ w3' ++ com_text c') with
      ((lit "[" ++ w1' ++ n ++ concat (map more_text m') ++ w2' ++ lit "]") ++ w3' ++ com_text c') by (rewrite <- !app_assoc; reflexivity).
    eapply b_bind; [apply b_std; auto|]. intros x x' _. apply b_end; auto.
  - unfold head_path in E. injection E as <- E. destruct F as (W0 & W1 & K & F & W2 & W3 & C), F' as (W0' & W1' & _ & F' & W2' & W3' & C').
    unfold expression_p. apply b_alt, b_complete. unfold table_comment. eapply b_bind; [apply b_ws; auto; simpl; lia|]. intros x0 x0' _.
    replace (lit "[[" ++ w1 ++ n ++ concat (map more_text m) ++ w2 ++ lit "]]" ++ w3 ++ com_text c) with
      ((lit "[[" ++ w1 ++ n ++ concat (map more_text m) ++ w2 ++ lit "]]") ++ w3 ++ com_text c) by (rewrite <- !app_assoc; reflexivity).
    replace (lit "[[" ++ w1' ++ n ++ concat (map more_text m') ++ w2' ++ lit "]]" ++ w3' ++ com_text c') with
      ((lit "[[" ++ w1' ++ n ++ concat (map more_text m') ++ w2' ++ lit "]]") ++ w3' ++ com_text c') by (rewrite <- !app_assoc; reflexivity).
    eapply b_bind; [apply b_arr; auto|]. intros x x' _. apply b_end; auto.
Qed.

(** ** Documents *)
Notation any := (fun _ _ => True).
Notation lines_ok := (Forall (fun x : str * tline => line_end (fst x) /\ formed (snd x))).
Lemma b_left : forall A (p : P A) q t x r t' r' n, t <> [] ->
  (forall s, exists s1 a, p s (t ++ x ++ r) = Ok (s1, Done (x ++ r) a) /\ forall u, twins s u -> twins s1 u) ->
  both (many_loop n p) q x r t' r' any -> both (many_loop (S n) p) q (t ++ x) r t' r' any.
Proof.
  intros A p q t x r t' r' n N E B s u H. rewrite <- !app_assoc. cbn [many_loop]. destruct (E s) as (s1 & a & E1 & T). specialize (B s1 u (T u H)).
  destruct (t ++ x ++ r) as [|c0 i0] eqn:I1; [destruct t; [congruence|discriminate]|]. rewrite <- I1 in *. rewrite E1. cbn [rbind].
  assert (NE : Nat.eqb (length (x ++ r)) (length (t ++ x ++ r)) = false) by (apply Nat.eqb_neq; rewrite (app_length t); destruct t; [congruence|]; cbn [length]; lia).
  rewrite NE. destruct (many_loop n p s1 (x ++ r)) as [[s2 r2]| |], (q u (t' ++ r')) as [[u2 r2']| |]; cbn [rsim rbind] in *; try contradiction; auto.
  destruct B as (B & l & l' & E2 & E3 & _). cbn [fst snd] in *. subst. split; auto. exists (a :: l), l'. auto.
Qed.
Lemma b_right : forall A (p : P A) q t x r t' r' n, t <> [] ->
  (forall s, exists s1 a, p s (t ++ x ++ r) = Ok (s1, Done (x ++ r) a) /\ forall u, twins u s -> twins u s1) ->
  both q (many_loop n p) t' r' x r any -> both q (many_loop (S n) p) t' r' (t ++ x) r any.
Proof.
  intros A p q t x r t' r' n N E B u s H. rewrite <- !app_assoc. cbn [many_loop]. destruct (E s) as (s1 & a & E1 & T). specialize (B u s1 (T u H)).
  destruct (t ++ x ++ r) as [|c0 i0] eqn:I1; [destruct t; [congruence|discriminate]|]. rewrite <- I1 in *. rewrite E1. cbn [rbind].
  assert (NE : Nat.eqb (length (x ++ r)) (length (t ++ x ++ r)) = false) by (apply Nat.eqb_neq; rewrite (app_length t); destruct t; [congruence|]; cbn [length]; lia).
  rewrite NE. destruct (many_loop n p s1 (x ++ r)) as [[s2 r2]| |], (q u (t' ++ r')) as [[u2 r2']| |]; cbn [rsim rbind] in *; try contradiction; auto.
  destruct B as (B & l & l' & E2 & E3 & _). cbn [fst snd] in *. subst. split; auto. exists l, (a :: l'). auto.
Qed.
Lemma b_newline : forall nl nl' r r', line_end nl -> line_end nl' -> both newline newline nl r nl' r' any.
Proof. intros nl nl' r r' N N' s u H. rewrite !newline_ok by auto. cbn. split; [apply tw_set_line; auto|]. exists nl, nl'. auto. Qed.
Lemma b_nl : forall nl d nl' d' r r', line_end nl -> line_end nl' -> formed d -> formed d' -> content d = content d' -> line_start r -> line_start r' ->
  both nl_expression_p nl_expression_p (nl ++ tline_text d) r (nl' ++ tline_text d') r' any.
Proof.
  intros nl d nl' d' r r' N N' F F' E R R'. unfold nl_expression_p. eapply b_bind; [apply b_newline; auto|]. intros x x' _.
  rewrite <- (app_nil_r (tline_text d)), <- (app_nil_r (tline_text d')). eapply b_bind; [rewrite !app_nil_l; apply b_line; auto|]. intros e e' _. apply b_ret. exact I.
Qed.
Lemma blank_nl : forall nl w c l, line_end nl -> blanks w -> com_ok c -> lines_ok l -> forall s, exists s1 a,
  nl_expression_p s ((nl ++ w ++ com_text c) ++ tdoc_text l ++ []) = Ok (s1, Done (tdoc_text l ++ []) a) /\ s1 = add_lines 1 s.
Proof.
  intros nl w c l N W C F s. rewrite app_nil_r. unfold nl_expression_p. rewrite <- app_assoc. rewrite (bind_ok _ _ _ _ _ _ _ (newline_ok nl _ s N)).
  destruct (blank_line (add_lines 1 s) w c (tdoc_text l) W C (tdoc_start l F)) as (e & E). rewrite (bind_ok _ _ _ _ _ _ _ E). cbn. eexists. eexists. split; reflexivity.
Qed.
Lemma blank_is : forall d, content d = [] -> exists w c, d = TPlain (HBlank w c).
Proof. intros [[w c| |]|] E; try discriminate E. eauto. Qed.
Lemma nl_ne : forall nl x, line_end nl -> nl ++ x <> [].
Proof. intros nl x [->| ->]; discriminate. Qed.
Lemma b_lines : forall k l l', (length l + length l' <= k)%nat -> lines_ok l -> lines_ok l' -> contents l = contents l' ->
  forall n m, (length (tdoc_text l) < n)%nat -> (length (tdoc_text l') < m)%nat ->
  both (many_loop n nl_expression_p) (many_loop m nl_expression_p) (tdoc_text l) [] (tdoc_text l') [] any.
Proof.
  induction k as [|k IH]; intros l l' LK F F' E n m LN LM.
  - destruct l; [|cbn in LK; lia]. destruct l'; [|cbn in LK; lia]. destruct n; [lia|]. destruct m; [lia|]. intros s u H. cbn. split; auto. exists [], []. auto.
  - assert (LEN : forall nl d (l : list (str * tline)) n, line_end nl -> (length (tdoc_text ((nl, d) :: l)) < S n)%nat -> (length (tdoc_text l) < n)%nat).
    { clear. intros nl d l n N L. change (tdoc_text ((nl, d) :: l)) with ((nl ++ tline_text d) ++ tdoc_text l) in L. rewrite !app_length in L. destruct N as [->| ->]; cbn [length] in L; lia. }
    destruct l as [|[nl d] l].
    + destruct l' as [|[nl' d'] l'].
      { destruct n; [lia|]. destruct m; [lia|]. intros s u H. cbn. split; auto. exists [], []. auto. }
      change (contents ((nl', d') :: l')) with (content d' ++ contents l') in E. cbn in E. symmetry in E. apply app_eq_nil in E as [E1 E2].
      inversion F' as [|? ? [N' FD'] FL']; subst. cbn [fst snd] in *. destruct (blank_is d' E1) as (w & c & ->). destruct FD' as [W C]. destruct m; [lia|].
      change (tdoc_text ((nl', TPlain (HBlank w c)) :: l')) with ((nl' ++ w ++ com_text c) ++ tdoc_text l'). apply b_right; [apply nl_ne; auto| |].
      { intros s. destruct (blank_nl nl' w c l' N' W C FL' s) as (s1 & a & X & ->). exists (add_lines 1 s), a. split; auto. intros u [T1 T2 T3 T4 T5 T6 T7 T8 T9]. constructor; auto. }
      apply IH; auto; [cbn in *; lia|]. first [exact (LEN _ _ _ _ N LN)|exact (LEN _ _ _ _ N' LM)].
    + inversion F as [|? ? [N FD] FL]; subst. cbn [fst snd] in *. destruct n; [lia|].
      change (contents ((nl, d) :: l)) with (content d ++ contents l) in E.
      destruct (content d) as [|it its] eqn:CD.
      { destruct (blank_is d CD) as (w & c & ->). destruct FD as [W C].
        change (tdoc_text ((nl, TPlain (HBlank w c)) :: l)) with ((nl ++ w ++ com_text c) ++ tdoc_text l). apply b_left; [apply nl_ne; auto| |].
        { intros s. destruct (blank_nl nl w c l N W C FL s) as (s1 & a & X & ->). exists (add_lines 1 s), a. split; auto. intros u [T1 T2 T3 T4 T5 T6 T7 T8 T9]. constructor; auto. }
        apply IH; auto; [cbn in *; lia|]. first [exact (LEN _ _ _ _ N LN)|exact (LEN _ _ _ _ N' LM)]. }
      destruct l' as [|[nl' d'] l']; [discriminate E|]. inversion F' as [|? ? [N' FD'] FL']; subst. cbn [fst snd] in *. destruct m; [lia|].
      change (contents ((nl', d') :: l')) with (content d' ++ contents l') in E. destruct (content d') as [|it' its'] eqn:CD'.
      { destruct (blank_is d' CD') as (w & c & ->). destruct FD' as [W C].
        change (tdoc_text ((nl', TPlain (HBlank w c)) :: l')) with ((nl' ++ w ++ com_text c) ++ tdoc_text l'). apply b_right; [apply nl_ne; auto| |].
        { intros s. destruct (blank_nl nl' w c l' N' W C FL' s) as (s1 & a & X & ->). exists (add_lines 1 s), a. split; auto. intros u [T1 T2 T3 T4 T5 T6 T7 T8 T9]. constructor; auto. }
        apply IH; auto; [cbn in *; lia| |first [exact (LEN _ _ _ _ N LN)|exact (LEN _ _ _ _ N' LM)]]. change (contents ((nl, d) :: l)) with (content d ++ contents l). rewrite CD. exact E. }
      assert (its = [] /\ its' = []) as [-> ->].
      { clear - CD CD'. destruct d as [[]|]; inversion CD; destruct d' as [[]|]; inversion CD'; auto. }
      cbn [app] in E. injection E as <- E.
      change (tdoc_text ((nl, d) :: l)) with ((nl ++ tline_text d) ++ tdoc_text l). change (tdoc_text ((nl', d') :: l')) with ((nl' ++ tline_text d') ++ tdoc_text l').
      eapply b_loop with (Q := any) (QL := any); [apply nl_ne; auto|apply nl_ne; auto| |apply IH; auto; [cbn in *; lia|first [exact (LEN _ _ _ _ N LN)|exact (LEN _ _ _ _ N' LM)]|first [exact (LEN _ _ _ _ N LN)|exact (LEN _ _ _ _ N' LM)]]|auto].
      rewrite !app_nil_r. apply b_nl; auto; [congruence|apply tdoc_start; auto..].
Qed.

Lemma csame_sym : forall c d, csame c d -> csame d c.
Proof. intros c d []. split; auto. Qed.
Lemma orel_sym : forall A (R : A -> A -> Prop), (forall a b, R a b -> R b a) -> forall x y, orel R x y -> orel R y x.
Proof. intros A R S [a|] [b|]; cbn; auto. Qed.
Lemma orel_trans : forall A (R : A -> A -> Prop), (forall a b c, R a b -> R b c -> R a c) -> forall x y z, orel R x y -> orel R y z -> orel R x z.
Proof. intros A R S [a|] [b|] [c|]; cbn; eauto; contradiction. Qed.
Lemma csame_trans : forall a b c, csame a b -> csame b c -> csame a c.
Proof. intros a b c [] []. split; congruence. Qed.
Lemma hsame_sym : forall a b, hsame a b -> hsame b a.
Proof. intros a b []. split; auto. eapply orel_sym; eauto. apply csame_sym. Qed.
Lemma hsame_trans : forall a b c, hsame a b -> hsame b c -> hsame a c.
Proof. intros a b c [] []. split; [|congruence]. eapply orel_trans; eauto. apply csame_trans. Qed.
Lemma ttsame_sym : forall a b, ttsame a b -> ttsame b a.
Proof. intros [a|a] [b|b]; cbn; auto. Qed.
Lemma ttsame_trans : forall a b c, ttsame a b -> ttsame b c -> ttsame a c.
Proof. intros [a|a] [b|b] [c|c]; cbn; try contradiction; congruence. Qed.
Lemma f2_sym : forall A (R : A -> A -> Prop), (forall a b, R a b -> R b a) -> forall l l', Forall2 R l l' -> Forall2 R l' l.
Proof. intros A R S l l' H. induction H; constructor; auto. Qed.
Lemma f2_trans : forall A (R : A -> A -> Prop), (forall a b c, R a b -> R b c -> R a c) -> forall l1 l2 l3, Forall2 R l1 l2 -> Forall2 R l2 l3 -> Forall2 R l1 l3.
Proof. intros A R S l1 l2 l3 H. revert l3. induction H; intros l3 K; inversion K; subst; constructor; eauto. Qed.
Lemma twins_sym : forall s t, twins s t -> twins t s.
Proof.
  intros s t []. constructor; auto.
  - intros k. eapply orel_sym; [apply hsame_sym|auto].
  - eapply f2_sym; [apply ttsame_sym|auto].
  - eapply orel_sym; [apply ttsame_sym|auto].
Qed.
Lemma twins_trans : forall s t u, twins s t -> twins t u -> twins s u.
Proof.
  intros s t u [] []. constructor; try congruence.
  - intros k. eapply orel_trans; [apply hsame_trans|eauto|eauto].
  - eapply f2_trans; [apply ttsame_trans|eauto|eauto].
  - eapply orel_trans; [apply ttsame_trans|eauto|eauto].
Qed.
Lemma b_first : forall l n, formed_doc l -> (length ([10%N] ++ tdoc_text l) < n)%nat -> both toml_p (many_loop n nl_expression_p) (tdoc_text l) [] ([10%N] ++ tdoc_text l) [] any.
Proof.
  intros [|[nl d] l] n F L; [destruct F|]. destruct F as (-> & FD & F). destruct n; [lia|]. change (tdoc_text (([], d) :: l)) with (tline_text d ++ tdoc_text l) in *.
  intros s u H. rewrite <- !app_assoc. cbn [many_loop]. set (q := many_loop n nl_expression_p). change ([10%N] ++ tline_text d ++ tdoc_text l ++ []) with (10 :: tline_text d ++ tdoc_text l ++ []). cbv iota.
  change (10 :: tline_text d ++ tdoc_text l ++ []) with ([10%N] ++ tline_text d ++ tdoc_text l ++ []).
  unfold toml_p, nl_expression_p, bind at 1. rewrite (bind_ok _ _ _ _ _ _ _ (newline_ok [10] _ u (or_introl eq_refl))). unfold bind at 2.
  assert (LS : line_start (tdoc_text l ++ [])) by (rewrite app_nil_r; apply tdoc_start; auto).
  pose proof (b_line d d (tdoc_text l ++ []) (tdoc_text l ++ []) FD FD eq_refl LS LS s (add_lines 1 u)) as B.
  assert (T1 : twins s (add_lines 1 u)) by (destruct H; constructor; auto). specialize (B T1).
  destruct (expression_p s _) as [[s1 r1]| |], (expression_p (add_lines 1 u) _) as [[u1 r1']| |]; cbn [rsim rbind] in *; try contradiction; auto.
  destruct B as (B & e & e' & E1 & E2 & _). cbn [fst snd] in *. subst r1 r1'. cbn [ret rbind].
  assert (NE : Nat.eqb (length (tdoc_text l ++ [])) (length ([10%N] ++ tline_text d ++ tdoc_text l ++ [])) = false) by (apply Nat.eqb_neq; rewrite !app_length; cbn [length]; lia).
  rewrite NE. unfold bind, nl_expressions, many0. set (q' := many_loop (S (length (tdoc_text l ++ []))) nl_expression_p).
  assert (BL : both q' q (tdoc_text l) [] (tdoc_text l) [] any).
  { unfold q', q. apply (b_lines (length l + length l)); auto; [rewrite app_nil_r; lia|]. repeat rewrite app_length in L. cbn [length] in L. lia. }
  specialize (BL s1 u1 B). destruct (q' s1 _) as [[s2 r2]| |], (q u1 _) as [[u2 r2']| |]; cbn [rsim rbind] in *; try contradiction; auto.
  destruct BL as (BL & x & x' & E1 & E2 & _). cbn [fst snd] in *. subst. cbn. split; auto. eexists. eexists. repeat split; auto.
Qed.
Lemma contents_first : forall nl d l, contents ((nl, d) :: l) = contents (([10], d) :: l).
Proof. reflexivity. Qed.
Lemma b_doc : forall l l', formed_doc l -> formed_doc l' -> contents l = contents l' -> both toml_p toml_p (tdoc_text l) [] (tdoc_text l') [] any.
Proof.
  intros l l' F F' E s u H.
  pose (n := S (length ([10%N] ++ tdoc_text l))). pose (m := S (length ([10%N] ++ tdoc_text l'))).
  assert (B1 := b_first l n F ltac:(unfold n; lia) s s (twins_refl s)). assert (B3 := b_first l' m F' ltac:(unfold m; lia) u u (twins_refl u)).
  assert (B2 : rsim (fun x y => twins (fst x) (fst y) /\ exists a b, snd x = Done [] a /\ snd y = Done [] b /\ True)
    (many_loop n nl_expression_p s (([10%N] ++ tdoc_text l) ++ [])) (many_loop m nl_expression_p u (([10%N] ++ tdoc_text l') ++ []))).
  { destruct l as [|[nl d] l]; [destruct F|]. destruct l' as [|[nl' d'] l']; [destruct F'|]. destruct F as (-> & FD & F). destruct F' as (-> & FD' & F').
    assert (BL : both (many_loop n nl_expression_p) (many_loop m nl_expression_p) (tdoc_text (([10], d) :: l)) [] (tdoc_text (([10], d') :: l')) [] any).
    { apply (b_lines (S (length l) + S (length l')));
        [cbn [length]; lia|constructor; [split; [left; reflexivity|exact FD]|exact F]|constructor; [split; [left; reflexivity|exact FD']|exact F']|exact E|unfold n; apply le_n|unfold m; apply le_n]. }
    exact (BL s u H). }
  clear F F' E H. destruct (toml_p s (tdoc_text l ++ [])) as [[s1 r1]| |], (many_loop n nl_expression_p s (([10%N] ++ tdoc_text l) ++ [])) as [[s2 r2]| |]; cbn [rsim] in *; try contradiction;
    destruct (many_loop m nl_expression_p u (([10%N] ++ tdoc_text l') ++ [])) as [[u2 r2']| |]; try contradiction; destruct (toml_p u (tdoc_text l' ++ [])) as [[u1 r1']| |]; cbn [rsim] in *; try contradiction; auto.
  destruct B1 as (B1 & a1 & b1 & X1 & Y1 & _), B2 as (B2 & a2 & b2 & X2 & Y2 & _), B3 as (B3 & a3 & b3 & X3 & Y3 & _). cbn [fst snd] in *. subst r1 r1'. split.
  - eapply twins_trans; [exact B1|]. eapply twins_trans; [exact B2|]. apply twins_sym; auto.
  - exists a1, a3. auto.
Qed.
Lemma twins_alike : forall s t, twins s t -> alike s t.
Proof.
  intros s t [M E _ _ _ _ _ _ _]. split; [|split; [|exact E]].
  - intros k. unfold get_value. hcase M k (p_map s) (p_map t); [|reflexivity]. destruct hv_value as [c|], hv_value0 as [d|]; cbn [orel] in V; try contradiction; auto. destruct V as [V _]. rewrite V. reflexivity.
  - intros k. unfold get_children. hcase M (match k with [] => root_key | _ => k end) (p_map s) (p_map t); reflexivity.
Qed.
Lemma parse_alike : forall s l l', formed_doc l -> formed_doc l' -> contents l = contents l' ->
  match parse s (tdoc_text l), parse s (tdoc_text l') with
  | Ok (s1, r1), Ok (s2, r2) => alike s1 s2 /\ alike_result r1 r2
  | Panic, Panic => True
  | _, _ => False
  end.
Proof.
  intros s l l' F F' E. pose proof (b_doc l l' F F' E s s (twins_refl s)) as B. rewrite !app_nil_r in B. unfold parse.
  assert (NF : forall i, toml_p s i <> Fuel) by (intros i; apply (nf_toml (length i)), le_n).
  pose proof (NF (tdoc_text l)) as N1. clear NF.
  destruct (toml_p s (tdoc_text l)) as [[s1 r1]| |], (toml_p s (tdoc_text l')) as [[s2 r2]| |]; cbn [rsim rbind] in *; try contradiction; auto.
  destruct B as (B & a & b & E1 & E2 & _). cbn [fst snd] in *. subst r1 r2. apply twins_alike in B. destruct B as (V & C & R).
  split; [split; [exact V|split; [exact C|exact R]]|]. cbn [set_leftover set_root p_errors]. destruct (p_errors s1), (p_errors s2); try discriminate R; [exact I|exact R].
Qed.
