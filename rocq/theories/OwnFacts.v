(** Two keys whose values have a part in common: one of the values is in the other one, at the
    place its key says. *)
From Coq Require Import Lia ZifyBool ZifyNat ZifyN.
From Verif Require Import TotalFacts.
From Verif Require Import Str Regex Types Ast State Nom Keys Grammar Api Facts Spec RegexFacts NomFacts DateFacts RoundTrip Effects ScalarFacts ParseFacts WalkFacts IdFacts WriteFacts
  ApiSpec ApiFacts SetFacts UpdateFacts SafeFacts CountFacts CauseFacts HeadSpec AfterFacts.

Definition covers (a b : str) : Prop := a = b \/ below a b.
Lemma covers_refl : forall a, covers a a.
Proof. left; auto. Qed.
Lemma covers_trans : forall a b c, covers a b -> covers b c -> covers a c.
Proof. intros a b c [->|A] [->|B]; unfold covers; auto. right. eapply SetFacts.below_trans; eauto. Qed.
Lemma covers_line : forall a b c, covers a c -> covers b c -> covers a b \/ covers b a.
Proof.
  assert (X : forall a b c, below a c -> below b c -> (length a <= length b)%nat -> covers a b).
  { intros a b c (x & r & -> & D) (y & q & E & D2) L. assert (A : exists z, b = a ++ z).
    { exists (skipn (length a) b). assert (F : firstn (length a) (a ++ x :: r) = firstn (length a) (b ++ y :: q)) by (rewrite E; auto).
      rewrite firstn_app, firstn_all, Nat.sub_diag, app_nil_r in F. rewrite firstn_app in F.
      replace (length a - length b)%nat with 0%nat in F by lia. cbn [firstn] in F. rewrite app_nil_r in F. rewrite F at 1. rewrite firstn_skipn. auto. }
    destruct A as (z & ->). destruct z as [|w z]; [left; rewrite app_nil_r; auto|]. rewrite <- app_assoc in E. apply app_inv_head in E.
    cbn [app] in E. injection E as -> E. right. exists w, z. auto. }
  intros a b c [->|A] [->|B]; unfold covers; auto. destruct (Nat.leb (length a) (length b)) eqn:L.
  - apply Nat.leb_le in L. left. eapply X; eauto.
  - apply Nat.leb_gt in L. right. eapply X; eauto. lia.
Qed.

(** ** The names of the parts of a value *)
Definition kidkey (K : str) (t : tval) (i : nat) : str :=
  match t with
  | TArray _ _ _ => K ++ idx_str (N.of_nat i)
  | TInlineTable kvs _ => K ++ lit "." ++ match nth_error kvs i with Some tk => tk.(tk_kv).(kv_key) | None => [] end
  | _ => K
  end.
Inductive loc : str -> cell -> str -> cell -> Prop :=
| L_here : forall K c, loc K c K c
| L_kid : forall K id t i c' k c, nth_error (kids t) i = Some c' -> loc (kidkey K t i) c' k c -> loc K (Cell id t) k c.
Lemma kidkey_below : forall K t i c, nth_error (kids t) i = Some c -> below K (kidkey K t i).
Proof. intros K t i c H. destruct t; try (destruct i; discriminate); cbn [kidkey]; [apply below_index|apply below_dot]. Qed.
Lemma loc_covers : forall K c0 k c, loc K c0 k c -> covers K k.
Proof.
  intros K c0 k c H. induction H as [|K id t i c' k c E H IH]; [apply covers_refl|]. eapply covers_trans; [|exact IH]. right. eapply kidkey_below; eauto.
Qed.
Lemma kid_ids : forall t i c x, nth_error (kids t) i = Some c -> In x (ids (subcells c)) -> In x (ids (tcells t)).
Proof. intros t i c x E I. rewrite tcells_kids. apply in_ids_flat. exists c. split; auto. eapply nth_error_In; eauto. Qed.
Lemma loc_ids : forall K c0 k c x, loc K c0 k c -> In x (ids (subcells c)) -> In x (ids (subcells c0)).
Proof.
  intros K c0 k c x H. induction H as [|K id t i c' k c E H IH]; auto. intros I. right. cbn [c_val]. eapply kid_ids; eauto.
Qed.
Lemma kid_dup : forall cs i j a b x, NoDup (ids (flat_map subcells cs)) -> nth_error cs i = Some a -> nth_error cs j = Some b ->
  In x (ids (subcells a)) -> In x (ids (subcells b)) -> i = j.
Proof.
  induction cs as [|c cs IH]; intros i j a b x N E1 E2 I1 I2; [destruct i; discriminate|]. cbn [flat_map] in N. rewrite ids_app in N.
  assert (D : forall j b, nth_error cs j = Some b -> In x (ids (subcells b)) -> ~ In x (ids (subcells c))).
  { intros j0 b0 E I J. assert (X : In x (ids (flat_map subcells cs))) by (apply in_ids_flat; exists b0; split; auto; eapply nth_error_In; eauto).
    clear - N J X. induction (ids (subcells c)) as [|y l IH]; [destruct J|]. cbn [app] in N. inversion N; subst. destruct J as [->|J]; auto. apply H1. apply in_app_iff; auto. }
  destruct i as [|i], j as [|j]; auto; cbn [nth_error] in *.
  - injection E1 as ->. exfalso. eapply D; eauto.
  - injection E2 as ->. exfalso. eapply D; eauto.
  - f_equal. eapply IH; eauto. eapply nodup_drop; eauto.
Qed.
Lemma kid_nodup : forall t i c, NoDup (ids (tcells t)) -> nth_error (kids t) i = Some c -> NoDup (ids (subcells c)).
Proof.
  intros t i c N E. rewrite tcells_kids in N. apply nth_error_In in E. apply in_split in E as (l1 & l2 & Q). rewrite Q, flat_map_app in N. cbn [flat_map] in N.
  rewrite !ids_app in N. apply nodup_drop in N. eapply NoDup_app_l; eauto.
Qed.
Lemma loc_trans : forall K c0 k c, loc K c0 k c -> forall k2 c2, loc k c k2 c2 -> loc K c0 k2 c2.
Proof. intros K c0 k c H. induction H; intros k2 c2 H2; auto. econstructor; eauto. Qed.

(** ** The invariant *)
Definition shares (c1 c2 : cell) : Prop := exists x, In x (ids (subcells c1)) /\ In x (ids (subcells c2)).
(** values with a part in common are one inside the other, at the place their keys say *)
Definition kin (m : vmap) : Prop := forall k1 k2 c1 c2, valof m k1 = Some c1 -> valof m k2 = Some c2 -> shares c1 c2 ->
  loc k1 c1 k2 c2 \/ loc k2 c2 k1 c1.
Definition bounded (s : pst) : Prop := forall k c, valof s.(p_map) k = Some c -> forall x, In x (ids (subcells c)) -> x < s.(p_next).
(** the names of the tables that are open *)
Definition okname (k : str) : Prop := exists k0 c, k = k0 ++ [c] /\ c <> 36.
Definition oktable (t : table_type) : Prop := Forall okname (map wk_key (tt_table t)).
Definition named (s : pst) : Prop := Forall oktable s.(p_tables) /\ match s.(p_last_table) with Some t => oktable t | None => True end.
Definition ok (s : pst) : Prop := kin s.(p_map) /\ bounded s /\ named s.

Lemma kin_sub : forall m m', sub m m' -> kin m -> kin m'.
Proof. intros m m' S K k1 k2 c1 c2 V1 V2. apply S in V1, V2. eauto. Qed.

(** ** The text in front of the keys of a line *)
Definition front (s : pst) : res str :=
  match s.(p_last_table) with
  | None => Ok []
  | Some (TStandard t) => let? (_, a, _) := get_array_table_key s.(p_ovf) s.(p_map) (vpush s.(p_tables) (TStandard t)) s.(p_tindex) in Ok a
  | Some (TArrayOf _) => let? (_, a, _) := get_array_table_key s.(p_ovf) s.(p_map) s.(p_tables) s.(p_tindex) in Ok a
  end.
Definition join (a x : str) : str := match a with [] => x | _ => a ++ lit "." ++ x end.
Definition text (kc : list key) : str := fold_left chain_step kc [].
Lemma front_keys : forall s fk pk, keyval_keys s = Ok (fk, pk) -> exists a, front s = Ok a /\ fk = join a (text s.(p_keychain)) /\
  (s.(p_last_table) <> None -> exists x, pk = a ++ x).
Proof.
  intros s fk pk H. unfold keyval_keys, front in *. destruct (p_last_table s) as [[t|t]|].
  - apply rbind_ok in H as ([[v fk0] pk0] & H & E). inversion E; subst. unfold get_full_key in H. apply rbind_ok in H as ([[v0 ak] q] & G & H).
    rewrite G. cbn [rbind]. exists ak. split; auto. unfold get_keychain_key in H. destruct ak; inversion H; subst; cbn [join text]; split; auto; intros _; eexists; try reflexivity.
  - apply rbind_ok in H as ([[v fk0] pk0] & H & E). inversion E; subst. unfold get_full_key in H. apply rbind_ok in H as ([[v0 ak] q] & G & H).
    rewrite G. cbn [rbind]. exists ak. split; auto. unfold get_keychain_key in H. destruct ak; inversion H; subst; cbn [join text]; split; auto; intros _; eexists; try reflexivity.
  - cbn [get_keychain_key] in H. inversion H; subst. exists []. split; auto. split; auto. congruence.
Qed.

(** two maps that agree at all keys that [a] properly begins with *)
Definition agree (a : str) (m m' : vmap) : Prop := forall k x, x <> [] -> a = k ++ x -> hget k m' = hget k m.
Definition okkey (k : str) : Prop := k = root_key \/ okname k.
Lemma root_reset : forall fk k, okkey k -> fk ++ k = root_key -> fk = [].
Proof.
  intros fk k [->|(k0 & c & -> & N)] E.
  - destruct fk; auto. apply (f_equal (@length N)) in E. rewrite app_length in E. cbn in E. lia.
  - exfalso. apply N. rewrite app_assoc in E. change root_key with (lit "$Root" ++ [36]) in E. apply app_inj_tail in E as [_ E]. auto.
Qed.
Lemma arr_front : forall m ks fk r, Forall okkey ks -> gatk_arr m ks fk = Ok r -> exists x, r = fk ++ x.
Proof.
  intros m. induction ks as [|k ks IH]; intros fk r F H; cbn [gatk_arr] in H; [inversion H; subst; exists []; rewrite app_nil_r; auto|].
  inversion F as [|k' ks' OK F']; subst. destruct ks as [|k1 rest]; [inversion H; subst; exists []; rewrite app_nil_r; auto|].
  destruct (hget (fk ++ k) m) as [hv|]; [|discriminate]. apply rbind_ok in H as (fk1 & E & H). apply IH in H as (x & ->); auto.
  destruct (hv_subkeys hv).
  - destruct (str_eqb (fk ++ k) root_key) eqn:Q; inversion E; subst.
    + apply str_eqb_eq in Q. apply root_reset in Q; auto. subst. exists x. auto.
    + eexists. rewrite <- !app_assoc. reflexivity.
  - match type of E with (if ?b then _ else _) = _ => destruct b; [|discriminate] end.
    destruct (str_eqb (fk ++ k) root_key) eqn:Q; inversion E; subst.
    + apply str_eqb_eq in Q. apply root_reset in Q; auto. subst. exists x. auto.
    + eexists. rewrite <- !app_assoc. reflexivity.
Qed.
Lemma arr_agree : forall m m' ks fk r r' y, Forall okkey ks -> gatk_arr m ks fk = Ok r -> agree (r ++ y) m m' ->
  gatk_arr m' ks fk = Ok r' -> r' = r.
Proof.
  intros m m'. induction ks as [|k ks IH]; intros fk r r' y F H A H'; cbn [gatk_arr] in H, H'; [congruence|].
  inversion F as [|k' ks' OK F']; subst. destruct ks as [|k1 rest]; [congruence|].
  destruct (hget (fk ++ k) m) as [hv|] eqn:G; [|discriminate]. destruct (hget (fk ++ k) m') as [hv'|] eqn:G'; [|discriminate].
  apply rbind_ok in H as (f1 & E & H). apply rbind_ok in H' as (f1' & E' & H').
  assert (Q : f1' = f1).
  { destruct (str_eqb (fk ++ k) root_key) eqn:Q.
    - assert (f1 = []) by (destruct (hv_subkeys hv); [inversion E; auto|destruct (_ || _); inversion E; auto]).
      assert (f1' = []) by (destruct (hv_subkeys hv'); [inversion E'; auto|destruct (_ || _); inversion E'; auto]). congruence.
    - destruct (arr_front _ _ _ _ F' H) as (x & ->).
      assert (W : exists z, z <> [] /\ f1 = (fk ++ k) ++ z).
      { destruct (hv_subkeys hv); [inversion E; subst; eexists; split; [|reflexivity]; discriminate|]. destruct (_ || _); inversion E; subst.
        eexists; split; [|reflexivity]; discriminate. }
      destruct W as (z & Z & ->). rewrite (A (fk ++ k) (z ++ x ++ y)) in G'; [|destruct z; [congruence|discriminate]|rewrite <- !app_assoc; auto].
      rewrite G in G'. inversion G'; subst hv'. rewrite E in E'. congruence. }
  subst f1'. eapply IH; eauto.
Qed.
Lemma std_front : forall m ks v fk pk, exists x, snd (fst (gatk_std m ks v fk pk)) = fk ++ x /\ forall m' v' pk', snd (fst (gatk_std m' ks v' fk pk')) = fk ++ x.
Proof.
  intros m. induction ks as [|k ks IH]; intros v fk pk; [exists []; rewrite app_nil_r; auto|].
  destruct ks as [|k1 rest]; [exists []; rewrite app_nil_r; auto|].
  assert (U : forall m v fk pk, gatk_std m (k :: k1 :: rest) v fk pk = if str_eqb k root_key then gatk_std m (k1 :: rest) v fk pk
    else gatk_std m (k1 :: rest) (v && negb (key_has_value m (fk ++ k))) ((fk ++ k) ++ lit ".") (match rest with [] => fk ++ k | _ => pk end)) by reflexivity.
  destruct (str_eqb k root_key) eqn:Q.
  - destruct (IH v fk pk) as (x & X & Y). exists x. rewrite U. split; auto. intros. rewrite U. auto.
  - destruct (IH (v && negb (key_has_value m (fk ++ k))) ((fk ++ k) ++ lit ".") (match rest with [] => fk ++ k | _ => pk end)) as (x & X & Y).
    exists (k ++ lit "." ++ x). rewrite U, X. rewrite <- !app_assoc. split; auto. intros. rewrite U, Y. rewrite <- !app_assoc. auto.
Qed.
Lemma last_keys_ok : forall t n, oktable (TArrayOf t) -> Forall okkey (skipn n (get_last_keys t)).
Proof.
  intros t n O. assert (F : Forall okkey (get_last_keys t)).
  { constructor; [left; auto|]. eapply Forall_impl; [|exact O]. intros; right; auto. }
  revert F. generalize (get_last_keys t). induction n; intros l F; auto. destruct l; auto. inversion F; subst. cbn [skipn]. auto.
Qed.
Lemma loop_front : forall ovf m ts ti n i e v fk pk v' a q, Forall oktable ts -> gatk_loop ovf m ts ti n i e v fk pk = Ok (v', a, q) -> exists x, a = fk ++ x.
Proof.
  intros ovf m ts ti. induction n; intros i e v fk pk v' a q F H; cbn [gatk_loop] in H; [inversion H; exists []; rewrite app_nil_r; auto|].
  apply rbind_ok in H as (t & T & H). assert (O : oktable t).
  { unfold vindex in T. destruct (nth_error ts i) eqn:E; inversion T; subst. apply nth_error_In in E. rewrite Forall_forall in F. auto. }
  destruct t as [t|t].
  - destruct (std_front m (skipn e (get_last_keys t)) v fk pk) as (x & X & _). destruct (gatk_std _ _ _ _ _) as [[v1 f1] p1]. cbn [fst snd] in X. subst f1.
    apply IHn in H as (y & ->); auto. eexists. rewrite <- !app_assoc. reflexivity.
  - apply rbind_ok in H as (f1 & E1 & H). apply arr_front in E1 as (x & ->); [|apply last_keys_ok; auto]. apply rbind_ok in H as (ix & _ & H).
    match type of H with (if ?b then _ else _) = _ => destruct b end; apply IHn in H as (y & ->); auto; eexists; rewrite <- !app_assoc; reflexivity.
Qed.
Lemma loop_agree : forall ovf m m' ts ti n i e v fk pk v1 a q1 v2 pk2 v' a' q', Forall oktable ts ->
  gatk_loop ovf m ts ti n i e v fk pk = Ok (v1, a, q1) -> agree a m m' -> gatk_loop ovf m' ts ti n i e v2 fk pk2 = Ok (v', a', q') -> a' = a.
Proof.
  intros ovf m m' ts ti. induction n; intros i e v fk pk v1 a q1 v2 pk2 v' a' q' F H A H'; cbn [gatk_loop] in H, H'; [congruence|].
  apply rbind_ok in H as (t & T & H). apply rbind_ok in H' as (t' & T' & H'). rewrite T in T'. inversion T'; subst t'; clear T'. assert (O : oktable t).
  { unfold vindex in T. destruct (nth_error ts i) eqn:E; inversion T; subst. apply nth_error_In in E. rewrite Forall_forall in F. auto. }
  destruct t as [t|t].
  - destruct (std_front m (skipn e (get_last_keys t)) v fk pk) as (x & X & Y). specialize (Y m' v2 pk2).
    destruct (gatk_std m _ _ _ _) as [[w1 f1] p1]. destruct (gatk_std m' _ _ _ _) as [[w2 f2] p2]. cbn [fst snd] in *. subst f1 f2.
    eapply IHn; eauto.
  - apply rbind_ok in H as (f1 & E1 & H). apply rbind_ok in H' as (f2 & E2 & H').
    apply rbind_ok in H as (ix & I1 & H). apply rbind_ok in H' as (ix' & I2 & H').
    assert (Z : exists z, z <> [] /\ a = f1 ++ last (get_last_keys t) [] ++ z).
    { match type of H with (if ?b then _ else _) = _ => destruct b end; apply loop_front in H as (y & ->); auto; rewrite <- !app_assoc;
        (eexists; split; [|reflexivity]); discriminate. }
    destruct Z as (z & Z & E). assert (f2 = f1).
    { apply (arr_agree m m' _ _ _ _ (last (get_last_keys t) [] ++ z) (last_keys_ok t e O) E1); [rewrite <- E; auto|exact E2]. }
    subst f2. rewrite (A (f1 ++ last (get_last_keys t) []) z Z) in I2 by (rewrite <- app_assoc; auto). rewrite I1 in I2. inversion I2; subst ix'.
    match type of H with (if ?b then _ else _) = _ => destruct b end; eapply IHn; eauto.
Qed.

(** the text in front is [a], if there is one *)
Definition fronted (a : str) (s : pst) : Prop := forall a', front s = Ok a' -> a' = a.
Lemma front_agree : forall s s' a a', named s -> s'.(p_last_table) = s.(p_last_table) -> s'.(p_ovf) = s.(p_ovf) -> s'.(p_tables) = s.(p_tables) ->
  s'.(p_tindex) = s.(p_tindex) -> front s = Ok a -> (s.(p_last_table) <> None -> agree a s.(p_map) s'.(p_map)) -> front s' = Ok a' -> a' = a.
Proof.
  intros s s' a a' [N1 N2] E1 E2 E3 E4 H A H'. unfold front in *. rewrite E1, E2, E3, E4 in H'. destruct (p_last_table s) as [[t|t]|].
  - apply rbind_ok in H as ([[x1 a1] y1] & G & H). apply rbind_ok in H' as ([[x2 a2] y2] & G' & H'). inversion H; inversion H'; subst.
    eapply loop_agree; [|exact G| |exact G']; [|apply A; discriminate]. unfold vpush. apply Forall_app. split; auto.
  - apply rbind_ok in H as ([[x1 a1] y1] & G & H). apply rbind_ok in H' as ([[x2 a2] y2] & G' & H'). inversion H; inversion H'; subst.
    eapply loop_agree; [|exact G| |exact G']; [auto|apply A; discriminate].
  - congruence.
Qed.

(** ** One key is stored *)
Definition same (s s' : pst) : Prop := s'.(p_map) = s.(p_map) /\ s'.(p_next) = s.(p_next) /\ s'.(p_tables) = s.(p_tables) /\
  s'.(p_tindex) = s.(p_tindex) /\ s'.(p_last_table) = s.(p_last_table) /\ s'.(p_ovf) = s.(p_ovf).
Lemma same_refl : forall s, same s s.
Proof. repeat split. Qed.
Lemma same_trans : forall a b c, same a b -> same b c -> same a c.
Proof. intros a b c (A1 & A2 & A3 & A4 & A5 & A6) (B1 & B2 & B3 & B4 & B5 & B6). repeat split; congruence. Qed.
Lemma same_ok : forall s s', same s s' -> ok s -> ok s'.
Proof. intros s s' (A1 & A2 & A3 & A4 & A5 & A6) (B1 & B2 & B3 & B4). unfold ok, bounded, named. rewrite A1, A2, A3, A5. auto. Qed.
Lemma same_front : forall s s' a, same s s' -> fronted a s -> fronted a s'.
Proof. intros s s' a (A1 & A2 & A3 & A4 & A5 & A6) F x. unfold front. rewrite A1, A3, A4, A5, A6. apply F. Qed.

Definition grown (s s' : pst) : Prop := forall k c, valof s'.(p_map) k = Some c ->
  valof s.(p_map) k = Some c \/ forall x, In x (ids (subcells c)) -> s.(p_next) <= x.
Definition run (a : str) (s s' : pst) : Prop := ok s' /\ s.(p_next) <= s'.(p_next) /\ fronted a s' /\ grown s s'.
Lemma run_same : forall a s s', same s s' -> ok s -> fronted a s -> run a s s'.
Proof.
  intros a s s' S O F. split; [eapply same_ok; eauto|]. split; [destruct S as (_ & -> & _); lia|]. split; [eapply same_front; eauto|].
  intros k c V. left. destruct S as (<- & _). auto.
Qed.
Lemma run_trans : forall a s1 s2 s3, run a s1 s2 -> run a s2 s3 -> run a s1 s3.
Proof.
  intros a s1 s2 s3 (A1 & A2 & A3 & A4) (B1 & B2 & B3 & B4). split; auto. split; [lia|]. split; auto.
  intros k c V. apply B4 in V as [V|V]; auto. right. intros x X. apply V in X. lia.
Qed.
Lemma run_eq : forall a s1 s2 s s', run a s1 s2 -> same s s1 -> same s2 s' -> run a s s'.
Proof.
  intros a s1 s2 s s' (A1 & A2 & A3 & A4) S1 S2. split; [eapply same_ok; eauto|]. pose proof S1 as (M1 & N1 & _). pose proof S2 as (M2 & N2 & _).
  split; [rewrite N2; lia|]. split; [eapply same_front; eauto|]. intros k c V. rewrite M2 in V. rewrite <- M1, <- N1. auto.
Qed.

Definition touch (l : list cell) (c : cell) : Prop := exists x, In x (ids (subcells c)) /\ In x (ids l).
Definition guard (Q : str -> cell -> Prop) (l : list cell) (s : pst) : Prop := forall k c, valof s.(p_map) k = Some c -> touch l c -> Q k c.
Definition span (n n' : N) (l : list cell) : Prop := forall x, In x (ids l) -> n <= x < n'.
Definition place (a : str) (s : pst) : str := join a (text s.(p_keychain)).
Lemma guard_grown : forall Q l n s s', guard Q l s -> span n s.(p_next) l -> grown s s' -> guard Q l s'.
Proof.
  intros K l n s s' G S W k c V T. apply W in V as [V|V]; [eapply G; eauto|]. destruct T as (x & X1 & X2). apply V in X1. apply S in X2. lia.
Qed.
Lemma guard_impl : forall (Q Q' : str -> cell -> Prop) l s, guard Q l s -> (forall k c, Q k c -> Q' k c) -> guard Q' l s.
Proof. intros Q Q' l s G C k c V T. eauto. Qed.
Lemma guard_app : forall Q l1 l2 s, guard Q l1 s -> guard Q l2 s -> guard Q (l1 ++ l2) s.
Proof. intros Q l1 l2 s A B k c V (x & X1 & X2). rewrite ids_app in X2. apply in_app_iff in X2 as [X2|X2]; [eapply A|eapply B]; eauto; exists x; auto. Qed.
Lemma guard_same : forall K l s s', guard K l s -> same s s' -> guard K l s'.
Proof. intros K l s s' G (M & _) k c V. rewrite M in V. eapply G; eauto. Qed.
Lemma span_app : forall n1 n2 n3 l1 l2, span n1 n2 l1 -> span n2 n3 l2 -> n1 <= n2 -> n2 <= n3 -> span n1 n3 (l1 ++ l2).
Proof. intros n1 n2 n3 l1 l2 A B L1 L2 x X. rewrite ids_app in X. apply in_app_iff in X as [X|X]; [apply A in X|apply B in X]; lia. Qed.
Lemma join_app : forall a x y, join a (x ++ y) = join a x ++ y.
Proof. intros [] x y; cbn [join]; auto. rewrite <- !app_assoc. auto. Qed.

Lemma parent_other : forall m pk kc m' k, update_parent m pk kc = Ok m' -> k <> pk -> hget k m' = hget k m.
Proof.
  intros m pk kc m' k H N. unfold update_parent in H. destruct (hget pk m) as [hv|].
  - destruct (hv_subkeys hv); [inversion H; apply hget_hput_other; auto|]. destruct (vlast kc) as [[]|]; inversion H; auto. apply hget_hput_other; auto.
  - destruct (vlast kc) as [[]|]; inversion H; apply hget_hput_other; auto.
Qed.
Lemma insert_own : forall s c s' a, ok s -> fronted a s -> insert_keyval_into_map s c = Ok s' -> guard (loc (place a s) c) (subcells c) s ->
  (forall x, In x (ids (subcells c)) -> x < s.(p_next)) ->
  ok s' /\ fronted a s' /\ s'.(p_next) = s.(p_next) /\ s'.(p_keychain) = s.(p_keychain) /\
  (forall k c', valof s'.(p_map) k = Some c' -> valof s.(p_map) k = Some c' \/ (k = place a s /\ c' = c)).
Proof.
  intros s c s' a O F H G BD. unfold insert_keyval_into_map in H. apply rbind_ok in H as ([fk pk] & K & H).
  destruct (front_keys _ _ _ K) as (a0 & E & EF & EP). pose proof (F _ E). subst a0. fold (place a s) in EF. subst fk.
  assert (X : forall hv m, hv.(hv_value) = Some c -> update_parent (hput (place a s) hv s.(p_map)) pk s.(p_keychain) = Ok m -> s' = set_map m s ->
    ok s' /\ fronted a s' /\ s'.(p_next) = s.(p_next) /\ s'.(p_keychain) = s.(p_keychain) /\
    (forall k c', valof s'.(p_map) k = Some c' -> valof s.(p_map) k = Some c' \/ (k = place a s /\ c' = c))).
  { intros hv m HV U ->. cbn [p_map set_map p_next p_keychain].
    assert (AD : forall k c', valof m k = Some c' -> valof s.(p_map) k = Some c' \/ (k = place a s /\ c' = c)).
    { intros k c' V. apply (update_parent_sub _ _ _ _ U) in V. rewrite valof_put in V. destruct (str_eqb k (place a s)) eqn:Q; auto.
      apply str_eqb_eq in Q. right. split; auto. congruence. }
    split; [|split; [|auto]].
    - destruct O as (KN & B & N). split; [|split; [|exact N]]; cbn [p_map set_map p_next].
      + intros k1 k2 c1 c2 V1 V2. apply AD in V1, V2. destruct V1 as [V1|[-> ->]], V2 as [V2|[-> ->]].
        * eapply KN; eauto.
        * intros (x & X1 & X2). right. eapply G; eauto. exists x; auto.
        * intros (x & X1 & X2). left. eapply G; eauto. exists x; auto.
        * intros _. left. constructor.
      + intros k c' V x I. cbn [p_map set_map p_next] in *. apply AD in V as [V|[-> ->]]; auto. eapply B; eauto.
    - intros a' E'. eapply (front_agree s (set_map m s)); eauto; [apply O|]. intros NL k x NX EA. cbn [p_map set_map].
      destruct (EP NL) as (q & ->). rewrite (parent_other _ _ _ _ _ U).
      + apply hget_hput_other. intros Q. apply (f_equal (@length N)) in Q. unfold place in Q. apply (f_equal (@length N)) in EA. rewrite app_length in EA.
        destruct a; cbn [join] in Q; [cbn [length] in EA|rewrite !app_length in Q]; destruct x; try congruence; cbn [length] in *; lia.
      + intros Q. apply (f_equal (@length N)) in Q. rewrite app_length in Q. apply (f_equal (@length N)) in EA. rewrite app_length in EA. destruct x; [congruence|]. cbn [length] in *. lia. }
  destruct (hget (place a s) (p_map s)) as [[[c0|] sb]|] eqn:Q.
  - apply rbind_ok in H as (v & _ & H). inversion H; subst. assert (SM : forall e, same s (push_error e s)) by (intros; repeat split).
    split; [eapply same_ok; eauto|]. split; [eapply same_front; eauto|]. auto.
  - apply rbind_ok in H as (m & U & H). inversion H; subst s'. eapply X; [|exact U|auto]. reflexivity.
  - apply rbind_ok in H as (m & U & H). inversion H; subst s'. eapply X; [|exact U|auto]. destruct (c_val c); reflexivity.
Qed.

(** ** Values *)
Lemma bind_cases : forall A B (p : P A) (f : A -> P B) s i s' r, bind p f s i = Ok (s', r) ->
  (exists r1, p s i = Ok (s', r1) /\ forall j x, r <> Done j x) \/ (exists s1 j x, p s i = Ok (s1, Done j x) /\ f x s1 j = Ok (s', r)).
Proof.
  intros A B p f s i s' r H. unfold bind in H. apply rbind_ok in H as ([s1 r1] & E & H). destruct r1; eauto 8; inversion H; subst; left; eexists; split; eauto; discriminate.
Qed.
Lemma insert_run : forall a s s1 c s2, run a s s1 -> span s.(p_next) s1.(p_next) (subcells c) -> guard (loc (place a s1) c) (subcells c) s1 ->
  insert_keyval_into_map s1 c = Ok s2 -> run a s s2 /\ s2.(p_next) = s1.(p_next) /\ guard (loc (place a s1) c) (subcells c) s2 /\ s2.(p_keychain) = s1.(p_keychain).
Proof.
  intros a s s1 c s2 (O & L & F & W) SP G I. destruct (insert_own _ _ _ _ O F I G) as (O2 & F2 & N2 & K2 & AD).
  { intros x X. apply SP in X. lia. }
  split; [|split; auto; split; auto].
  - split; auto. split; [lia|]. split; auto. intros k c' V. apply AD in V as [V|[-> ->]]; auto. right. intros x X. apply SP in X. lia.
  - intros k c' V T. apply AD in V as [V|[-> ->]]; [eapply G; eauto|constructor].
Qed.
Lemma run_keys : forall a s s' kc, run a s s' -> run a s (set_keychain kc s').
Proof. intros a s s' kc R. eapply run_eq; [exact R|apply same_refl|repeat split]. Qed.
Lemma run_refl : forall a s, ok s -> fronted a s -> run a s s.
Proof. intros. apply run_same; auto. apply same_refl. Qed.
Lemma text_index : forall kc j, text (kc ++ [KIndex j]) = text kc ++ idx_str j.
Proof. intros kc j. unfold text. rewrite fold_left_app. reflexivity. Qed.
Lemma text_str : forall kc k, text (kc ++ [KStr k]) = match text kc with [] => k | _ => text kc ++ lit "." ++ k end.
Proof. intros kc k. unfold text. rewrite fold_left_app. cbn [fold_left]. destruct (fold_left chain_step kc []) eqn:E; unfold chain_step; [reflexivity|]. rewrite <- app_assoc. reflexivity. Qed.
Lemma place_index : forall a kc j, join a (text (kc ++ [KIndex j])) = join a (text kc) ++ idx_str j.
Proof. intros a kc j. rewrite text_index, join_app. auto. Qed.
Lemma place_str : forall a kc k, text kc <> [] -> join a (text (kc ++ [KStr k])) = join a (text kc) ++ lit "." ++ k.
Proof. intros a kc k T. rewrite text_str. destruct (text kc) as [|x t] eqn:E; [congruence|]. rewrite join_app. auto. Qed.
Lemma name_nonempty : forall k, name_text k -> k <> [].
Proof. intros k [B|(x & _ & ->)]; [destruct B; auto|discriminate]. Qed.

Definition vown (p : P cell) : Prop := forall a s i s' r, p s i = Ok (s', r) -> ok s -> fronted a s -> run a s s' /\
  match r with
  | Done _ c => span s.(p_next) s'.(p_next) (subcells c) /\ (text s.(p_keychain) <> [] -> guard (loc (place a s) c) (subcells c) s')
  | _ => True
  end.
(** the entry is in one of the parts of [t] *)
Definition inside (K : str) (t : tval) (k : str) (c : cell) : Prop := exists i c', nth_error (kids t) i = Some c' /\ loc (kidkey K t i) c' k c.
Definition town {A} (p : P A) (f : A -> tval) : Prop := forall a s i s' r, p s i = Ok (s', r) -> ok s -> fronted a s -> run a s s' /\
  match r with
  | Done _ t => span s.(p_next) s'.(p_next) (tcells (f t)) /\ (text s.(p_keychain) <> [] -> guard (inside (place a s) (f t)) (tcells (f t)) s')
  | _ => True
  end.
Section OwnVal.
  Variable pval : P cell.
  Hypothesis PV : vown pval.
  Hypothesis PF : vfault pval.

  Lemma av_own : forall a s i s' r kc j, array_value_ pval s i = Ok (s', r) -> ok s -> fronted a s -> s.(p_keychain) = kc ++ [KIndex j] -> run a s s' /\
    match r with
    | Done _ av => s'.(p_keychain) = kc ++ [KIndex (j + 1)] /\ span s.(p_next) s'.(p_next) (subcells av.(av_val)) /\
        guard (loc (join a (text kc) ++ idx_str j) av.(av_val)) (subcells av.(av_val)) s'
    | _ => True
    end.
  Proof.
    intros a s i s' r kc j H O F K. unfold array_value_ in H. apply bind_cases in H as [(r1 & E & ND)|(s1 & i1 & c & E & H)].
    { destruct (PV _ _ _ _ _ E O F) as [R _]. split; [exact R|]. destruct r; auto. destruct (ND _ _ eq_refl). }
    destruct (PV _ _ _ _ _ E O F) as (R & SP & G). assert (NT : text s.(p_keychain) <> []).
    { rewrite K, text_index. intros X. apply app_eq_nil in X as [_ X]. discriminate. }
    specialize (G NT). destruct PF as [D _]. destruct (D _ _ _ _ _ _ _ E K) as (K1 & _).
    apply bind_cases in H as [(r1 & E2 & ND)|(s2 & i2 & sep & E2 & H)].
    { assert (s' = s1) by (eapply (pure_state (opt (complete array_sep))); [pure_tac; apply pure_sep|exact E2]). subst s'.
      split; auto. destruct r; auto. destruct (ND _ _ eq_refl). }
    assert (s2 = s1) by (eapply (pure_state (opt (complete array_sep))); [pure_tac; apply pure_sep|exact E2]). subst s2.
    assert (CS : forall s i s' r, complete comment_or_nls s i = Ok (s', r) -> s' = s).
    { intros x y x' z X. unfold complete in X. apply rbind_ok in X as ([x1 z1] & X & Y). inversion Y; subst.
      eapply (pres_comment_or_nls (fun s s' => s' = s)); eauto; intros; subst; auto. }
    apply bind_cases in H as [(r1 & E3 & ND)|(s2 & i3 & nls & E3 & H)].
    { apply CS in E3. subst s'. split; auto. destruct r; auto. destruct (ND _ _ eq_refl). }
    apply CS in E3. subst s2. unfold act in H. apply rbind_ok in H as ([s2 av] & H & X). inversion X; subst s' r; clear X.
    unfold array_value_act in H. apply rbind_ok in H as (ty & _ & H). apply rbind_ok in H as (s3 & M & H).
    apply rbind_ok in H as (s4 & I & H).
    match type of I with insert_keyval_into_map ?x _ = _ => set (s3' := x) in * end.
    assert (SM : same s1 s3' /\ s3'.(p_keychain) = s1.(p_keychain)).
    { apply mixed_effect in M as [->|[pk ->]]; unfold s3'; repeat split. }
    destruct SM as [SM KE]. assert (PL : place a s3' = place a s) by (unfold place; rewrite KE, K1; auto).
    destruct (insert_run a s s3' c s4) as (R4 & N4 & G4 & K4); auto.
    { eapply run_eq; [exact R|apply same_refl|exact SM]. }
    { destruct SM as (_ & -> & _). auto. }
    { rewrite PL. eapply guard_same; eauto. }
    rewrite K4, KE, K1, K in H. rewrite app_length in H. cbn [length] in H.
    replace (length kc + 1 - 1)%nat with (length kc) in H by lia.
    rewrite nth_error_app2, Nat.sub_diag in H by lia. cbn [nth_error] in H.
    rewrite firstn_app, Nat.sub_diag, firstn_all in H. cbn [firstn] in H. rewrite app_nil_r in H.
    rewrite skipn_all2 in H by (rewrite app_length; cbn; lia). inversion H; subst s2 av; clear H. cbn [av_val p_keychain set_keychain p_next key_inc].
    split; [apply run_keys; auto|]. split; auto. split.
    - rewrite N4. destruct SM as (_ & -> & _). auto.
    - rewrite <- place_index, <- K. fold (place a s). rewrite <- PL. eapply guard_same; [exact G4|repeat split].
  Qed.
  Lemma avs_own : forall n a s i s' r kc j, many_loop n (array_value_ pval) s i = Ok (s', r) -> ok s -> fronted a s -> s.(p_keychain) = kc ++ [KIndex j] -> run a s s' /\
    match r with
    | Done _ l => span s.(p_next) s'.(p_next) (flat_map (fun av => subcells av.(av_val)) l) /\
        guard (fun k c => exists p av, nth_error l p = Some av /\ loc (join a (text kc) ++ idx_str (j + N.of_nat p)) av.(av_val) k c)
          (flat_map (fun av => subcells av.(av_val)) l) s'
    | _ => True
    end.
  Proof.
    assert (Z : forall K s s', span s.(p_next) s'.(p_next) [] /\ guard K [] s').
    { intros. split; [intros x []|intros k c V (x & _ & [])]. }
    induction n; intros a s i s' r kc j H O F K; [discriminate|]. cbn [many_loop] in H.
    destruct i as [|c i]; [inversion H; subst; split; [apply run_refl; auto|apply Z]|].
    apply rbind_ok in H as ([s1 r1] & E & H). destruct (av_own _ _ _ _ _ _ _ E O F K) as (R & X).
    destruct r1 as [i1 av| |]; [|inversion H; subst; split; auto; apply Z|inversion H; subst; split; auto].
    destruct (Nat.eqb _ _); [inversion H; subst; split; auto; apply Z|]. destruct X as (K1 & SP & G).
    apply rbind_ok in H as ([s2 r2] & E2 & H). inversion H; subst s' r; clear H. pose proof R as (O1 & L1 & F1 & W1).
    destruct (IHn _ _ _ _ _ _ _ E2 O1 F1 K1) as (R2 & X). split; [eapply run_trans; eauto|]. destruct r2; auto. destruct X as [SP2 G2].
    pose proof R2 as (_ & L2 & _ & W2). cbn [flat_map]. split; [eapply span_app; eauto|]. apply guard_app.
    - eapply guard_impl; [eapply guard_grown; eauto|]. cbv beta. intros k x X. exists 0%nat, av. split; auto. rewrite N.add_0_r. exact X.
    - eapply guard_impl; [exact G2|]. cbv beta. intros k x (p & y & Y & X). exists (S p), y. split; auto.
      replace (j + N.of_nat (S p)) with (j + 1 + N.of_nat p) by lia. exact X.
  Qed.
  Lemma town_array : town (array_ pval) (fun t => t).
  Proof.
    intros a s i s' r H O F. unfold array_ in H. apply rbind_ok in H as ([s1 r1] & E & H). inversion H; subst s' r1; clear H.
    match type of E with _ ?x _ = _ => set (s0 := x) in * end.
    assert (S0 : same s s0) by (repeat split). assert (K0 : s0.(p_keychain) = s.(p_keychain) ++ [KIndex 0]) by reflexivity.
    assert (O0 : ok s0) by (eapply same_ok; eauto). assert (F0 : fronted a s0) by (eapply same_front; eauto).
    assert (X : run a s0 s1 /\ match r with Done _ t => span s0.(p_next) s1.(p_next) (tcells t) /\ guard (inside (place a s) t) (tcells t) s1 | _ => True end).
    { clearbody s0. unfold array_internal_ in E. apply bind_cases in E as [(r1 & E1 & ND)|(s2 & i2 & u & E1 & E)].
      { assert (s1 = s0) by (eapply (pure_state (tag (lit "["))); [pure_tac|exact E1]). subst. split; [apply run_refl; auto|]. destruct r; auto. destruct (ND _ _ eq_refl). }
      assert (s2 = s0) by (eapply (pure_state (tag (lit "["))); [pure_tac|exact E1]). subst s2.
      assert (CS : forall s i s' r, comment_or_nls s i = Ok (s', r) -> s' = s).
      { intros x y x' z X. eapply (pres_comment_or_nls (fun s s' => s' = s)); eauto; intros; subst; auto. }
      apply bind_cases in E as [(r1 & E2 & ND)|(s2 & i3 & n1 & E2 & E)]; apply CS in E2; subst.
      { split; [apply run_refl; auto|]. destruct r; auto. destruct (ND _ _ eq_refl). }
      apply bind_cases in E as [(r1 & E2 & ND)|(s2 & i4 & l & E2 & E)]; unfold array_values_, many0 in E2;
        destruct (avs_own _ _ _ _ _ _ _ _ E2 O0 F0 K0) as (R & X).
      { split; auto. destruct r; auto. destruct (ND _ _ eq_refl). }
      apply bind_cases in E as [(r1 & E3 & ND)|(s3 & i5 & n2 & E3 & E)]; apply CS in E3; subst.
      { split; auto. destruct r; auto. destruct (ND _ _ eq_refl). }
      apply bind_cases in E as [(r1 & E3 & ND)|(s3 & i6 & u2 & E3 & E)].
      { assert (s1 = s2) by (eapply (pure_state (tag (lit "]"))); [pure_tac|exact E3]). subst. split; auto. destruct r; auto. destruct (ND _ _ eq_refl). }
      assert (s3 = s2) by (eapply (pure_state (tag (lit "]"))); [pure_tac|exact E3]). subst s3. inversion E; subst. split; auto. destruct X as [X1 X2]. split; [exact X1|].
      eapply guard_impl; [exact X2|]. cbv beta. intros k x (p & av & Y & Z). exists p, (av_val av). cbn [kids kidkey]. split; [rewrite nth_error_map, Y; auto|]. exact Z. }
    destruct X as [R X]. assert (S1 : same s1 (set_atypes (vpop (p_atypes (pop_key s1))) (pop_key s1))) by repeat split.
    split; [eapply run_eq; eauto|]. destruct r; auto. destruct X as [SP G]. split; [exact SP|]. intros _. eapply guard_same; eauto.
  Qed.

  Lemma kv_own : forall a s i s' r, keyval_p_ pval s i = Ok (s', r) -> ok s -> fronted a s -> run a s s' /\
    match r with
    | Done _ kv => s'.(p_keychain) = s.(p_keychain) /\ span s.(p_next) s'.(p_next) (kv_cells kv) /\
        guard (loc (join a (text (s.(p_keychain) ++ [KStr kv.(kv_key)]))) kv.(kv_val)) (kv_cells kv) s'
    | _ => True
    end.
  Proof.
    intros a s i s' r H O F. unfold keyval_p_ in H. apply bind_cases in H as [(r1 & E & ND)|(s1 & i1 & k & E & H)].
    { assert (same s s').
      { assert (GC : forall (acc : list cell) kc x, same s x -> same s (set_keychain kc x)) by (intros acc kc x X; eapply same_trans; [exact X|repeat split]).
        pose proof (n_key (fun (_ : list cell) x => same s x) GC [] s i s' r1 (same_refl s) E) as X. destruct r1; exact X. }
      split; [apply run_same; auto|]. destruct r; auto. destruct (ND _ _ eq_refl). }
    pose proof (key_text _ _ _ _ _ E) as [_ NT]. apply name_nonempty in NT. apply key_pushed in E. subst s1. set (s0 := push_key (KStr k) s) in *.
    assert (S0 : same s s0) by (repeat split). assert (K0 : s0.(p_keychain) = s.(p_keychain) ++ [KStr k]) by reflexivity.
    assert (O0 : ok s0) by (eapply same_ok; eauto). assert (F0 : fronted a s0) by (eapply same_front; eauto).
    assert (T0 : text s0.(p_keychain) <> []).
    { rewrite K0, text_str. destruct (text (p_keychain s)); auto. discriminate. }
    clearbody s0. apply bind_cases in H as [(r1 & E2 & ND)|(s2 & i2 & sep & E2 & H)].
    { assert (s' = s0) by (eapply (pure_state keyval_sep); [apply pure_kvsep|exact E2]). subst s'.
      split; [apply run_same; auto|]. destruct r; auto. destruct (ND _ _ eq_refl). }
    assert (s2 = s0) by (eapply (pure_state keyval_sep); [apply pure_kvsep|exact E2]). subst s2.
    apply bind_cases in H as [(r1 & E3 & ND)|(s2 & i3 & c & E3 & H)].
    { destruct (PV _ _ _ _ _ E3 O0 F0) as (R & _). split; [eapply run_eq; eauto; apply same_refl|]. destruct r; auto. destruct (ND _ _ eq_refl). }
    destruct (PV _ _ _ _ _ E3 O0 F0) as (R & SP & G). specialize (G T0). destruct PF as [D _]. destruct (D _ _ _ _ _ _ _ E3 K0) as (K1 & _).
    assert (PL : place a s2 = place a s0) by (unfold place; rewrite K1; auto).
    unfold act in H. apply rbind_ok in H as ([s3 kv] & H & X). inversion X; subst s' r; clear X.
    assert (N0 : s0.(p_next) = s.(p_next)) by apply S0.
    apply keyval_effect in H as [-> [[_ (e & _ & ->)]|[_ (s4 & I & ->)]]]; unfold kv_cells; cbn [kv_val kv_key]; rewrite <- K0; fold (place a s0); rewrite <- N0.
    - assert (S2 : same s2 (pop_key (set_errors e s2))) by repeat split. split; [eapply run_eq; eauto|].
      split; [cbn; rewrite K1, K0; unfold vpop; apply removelast_last|]. split; [exact SP|eapply guard_same; eauto].
    - destruct (insert_run a s0 s2 c s4) as (R4 & N4 & G4 & K4); auto; [rewrite PL; auto|].
      assert (S2 : same s4 (pop_key s4)) by repeat split. split; [eapply run_eq; eauto|].
      split; [cbn; rewrite K4, K1, K0; unfold vpop; apply removelast_last|]. split; [cbn; rewrite N4; exact SP|]. rewrite <- PL. eapply guard_same; eauto.
  Qed.
  Lemma tk_own : forall a s i s' r, table_keyval_p_ pval s i = Ok (s', r) -> ok s -> fronted a s -> run a s s' /\
    match r with
    | Done _ tk => s'.(p_keychain) = s.(p_keychain) /\ span s.(p_next) s'.(p_next) (kv_cells tk.(tk_kv)) /\
        (text s.(p_keychain) <> [] -> guard (loc (place a s ++ lit "." ++ tk.(tk_kv).(kv_key)) tk.(tk_kv).(kv_val)) (kv_cells tk.(tk_kv)) s')
    | _ => True
    end.
  Proof.
    intros a s i s' r H O F. unfold table_keyval_p_ in H.
    apply bind_cases in H as [(r1 & E & ND)|(s1 & i1 & kv & E & H)]; destruct (kv_own _ _ _ _ _ E O F) as (R & X).
    { split; auto. destruct r; auto. destruct (ND _ _ eq_refl). }
    assert (CS : forall s i s' r, complete comment_or_nls s i = Ok (s', r) -> s' = s).
    { intros x y x' z Z. unfold complete in Z. apply rbind_ok in Z as ([x1 z1] & Z & Y). inversion Y; subst.
      eapply (pres_comment_or_nls (fun s s' => s' = s)); eauto; intros; subst; auto. }
    apply bind_cases in H as [(r1 & E2 & ND)|(s2 & i2 & sep & E2 & H)].
    { assert (s' = s1) by (eapply (pure_state (opt (complete array_sep))); [pure_tac; apply pure_sep|exact E2]). subst s'.
      split; auto. destruct r; auto. destruct (ND _ _ eq_refl). }
    assert (s2 = s1) by (eapply (pure_state (opt (complete array_sep))); [pure_tac; apply pure_sep|exact E2]). subst s2.
    apply bind_cases in H as [(r1 & E3 & ND)|(s2 & i3 & nls & E3 & H)]; apply CS in E3; subst.
    { split; auto. destruct r; auto. destruct (ND _ _ eq_refl). }
    inversion H; subst. split; auto. cbn [tk_kv]. destruct X as (K1 & SP & G). split; auto. split; auto. intros T.
    unfold place. rewrite <- place_str by auto. exact G.
  Qed.
  Lemma tks_own : forall n a s i s' r, many_loop n (table_keyval_p_ pval) s i = Ok (s', r) -> ok s -> fronted a s -> run a s s' /\
    match r with
    | Done _ l => span s.(p_next) s'.(p_next) (flat_map (fun tk => kv_cells tk.(tk_kv)) l) /\
        (text s.(p_keychain) <> [] -> guard (fun k c => exists p tk, nth_error l p = Some tk /\ loc (place a s ++ lit "." ++ tk.(tk_kv).(kv_key)) tk.(tk_kv).(kv_val) k c)
          (flat_map (fun tk => kv_cells tk.(tk_kv)) l) s')
    | _ => True
    end.
  Proof.
    assert (Z : forall T K s s', span s.(p_next) s'.(p_next) [] /\ (T -> guard K [] s')).
    { intros. split; [intros x []|intros _ k c V (x & _ & [])]. }
    induction n; intros a s i s' r H O F; [discriminate|]. cbn [many_loop] in H.
    destruct i as [|c i]; [inversion H; subst; split; [apply run_refl; auto|apply Z]|].
    apply rbind_ok in H as ([s1 r1] & E & H). destruct (tk_own _ _ _ _ _ E O F) as (R & X).
    destruct r1 as [i1 tk| |]; [|inversion H; subst; split; auto; apply Z|inversion H; subst; split; auto].
    destruct (Nat.eqb _ _); [inversion H; subst; split; auto; apply Z|]. destruct X as (K1 & SP & G).
    apply rbind_ok in H as ([s2 r2] & E2 & H). inversion H; subst s' r; clear H. pose proof R as (O1 & L1 & F1 & W1).
    destruct (IHn _ _ _ _ _ E2 O1 F1) as (R2 & X). split; [eapply run_trans; eauto|]. destruct r2; auto. destruct X as [SP2 G2].
    pose proof R2 as (_ & L2 & _ & W2). cbn [flat_map]. split; [eapply span_app; eauto|]. intros T. specialize (G T). unfold place in *. rewrite K1 in G2. specialize (G2 T).
    apply guard_app.
    - eapply guard_impl; [eapply guard_grown; eauto|]. cbv beta. intros k x X. exists 0%nat, tk. split; auto.
    - eapply guard_impl; [exact G2|]. cbv beta. intros k x (p & y & Y & X). exists (S p), y. split; auto.
  Qed.
  Lemma town_inline : town (inline_table_ pval) (fun t => t).
  Proof.
    intros a s i s' r E O F. unfold inline_table_ in E.
    assert (PU : forall A (p : P A) s i s' r, pure p -> p s i = Ok (s', r) -> s' = s) by (intros A p x y z w X Y; eapply (pure_state p); eauto).
    apply bind_cases in E as [(r1 & E1 & ND)|(s1 & i1 & u & E1 & E)]; apply PU in E1; try pure_tac; subst.
    { split; [apply run_refl; auto|]. destruct r; auto. destruct (ND _ _ eq_refl). }
    apply bind_cases in E as [(r1 & E1 & ND)|(s1 & i2 & w1 & E1 & E)]; apply PU in E1; try (unfold ws; pure_tac; fail); subst.
    { split; [apply run_refl; auto|]. destruct r; auto. destruct (ND _ _ eq_refl). }
    assert (X : forall i s' r, opt (complete (inline_table_keyvals_ pval)) s i = Ok (s', r) -> run a s s' /\
      match r with
      | Done _ o => span s.(p_next) s'.(p_next) (flat_map (fun tk => kv_cells tk.(tk_kv)) match o with Some l => l | None => [] end) /\
          (text s.(p_keychain) <> [] -> guard (fun k c => exists p tk, nth_error (match o with Some l => l | None => [] end) p = Some tk /\ loc (place a s ++ lit "." ++ tk.(tk_kv).(kv_key)) tk.(tk_kv).(kv_val) k c)
            (flat_map (fun tk => kv_cells tk.(tk_kv)) match o with Some l => l | None => [] end) s')
      | _ => True
      end).
    { clear - PV PF O F. intros i s' r H. unfold opt in H. apply rbind_ok in H as ([s1 r1] & E & H). inversion H; subst s1 r; clear H.
      unfold complete in E. apply rbind_ok in E as ([s1 r2] & E & H). inversion H; subst s1 r1; clear H. destruct (tks_own _ _ _ _ _ _ E O F) as [R X].
      split; auto. destruct r2; auto; (split; [intros x []|intros _ k c V (x & _ & [])]). }
    apply bind_cases in E as [(r1 & E1 & ND)|(s2 & i3 & o & E1 & E)]; apply X in E1 as [R Y].
    { split; auto. destruct r; auto. destruct (ND _ _ eq_refl). }
    apply bind_cases in E as [(r1 & E1 & ND)|(s3 & i4 & w2 & E1 & E)]; apply PU in E1; try (unfold ws; pure_tac; fail); subst.
    { split; auto. destruct r; auto. destruct (ND _ _ eq_refl). }
    apply bind_cases in E as [(r1 & E1 & ND)|(s3 & i5 & u2 & E1 & E)]; apply PU in E1; try pure_tac; subst.
    { split; auto. destruct r; auto. destruct (ND _ _ eq_refl). }
    inversion E; subst. split; auto. destruct Y as [Y1 Y2]. split; [exact Y1|]. intros T.
    eapply guard_impl; [exact (Y2 T)|]. cbv beta. intros k x (p & tk & Y & Z). exists p, (kv_val (tk_kv tk)). cbn [kids kidkey].
    split; [rewrite nth_error_map, Y; auto|]. rewrite Y. exact Z.
  Qed.
End OwnVal.

Lemma vown_pcell : forall A (p : P A) f, town p f -> vown (pcell p f).
Proof.
  intros A p f H a s i s' r E O F. unfold pcell in E.
  assert (X : forall s' r, complete p s i = Ok (s', r) -> run a s s' /\
    match r with Done _ t => span s.(p_next) s'.(p_next) (tcells (f t)) /\ (text s.(p_keychain) <> [] -> guard (inside (place a s) (f t)) (tcells (f t)) s') | _ => True end).
  { intros x z X. unfold complete in X. apply rbind_ok in X as ([x1 z1] & X & Y). inversion Y; subst. destruct (H _ _ _ _ _ X O F) as [R Z]. split; auto. destruct z1; auto. }
  apply bind_cases in E as [(r1 & E & ND)|(s1 & j & x & E & H2)]; apply X in E as [R Z].
  - split; auto. destruct r; auto. destruct (ND _ _ eq_refl).
  - unfold act in H2. cbn [rbind new_cell] in H2. inversion H2; subst s' r; clear H2. destruct R as (O1 & L & F1 & W). destruct Z as [SP G].
    pose proof O1 as (KN & B & NM). set (s2 := set_next (p_next s1 + 1) s1). assert (NX : s2.(p_next) = s1.(p_next) + 1) by reflexivity.
    assert (MP : s2.(p_map) = s1.(p_map)) by reflexivity.
    assert (O2 : ok s2).
    { split; [exact KN|]. split; [|exact NM]. intros k c V y I. rewrite MP in V. rewrite NX. specialize (B _ _ V _ I). lia. }
    split; [|split].
    + split; auto. split; [lia|]. split; [exact F1|]. intros k c V. rewrite MP in V. auto.
    + intros y I. cbn [subcells ids map c_id c_val] in I. destruct I as [<-|I]; [lia|]. apply SP in I. lia.
    + intros T k c V (y & Y1 & Y2). rewrite MP in V. cbn [subcells ids map c_id c_val] in Y2. destruct Y2 as [<-|Y2].
      * specialize (B _ _ V _ Y1). lia.
      * destruct (G T _ _ V) as (p0 & c' & P1 & P2); [exists y; auto|]. econstructor; eauto.
Qed.
Definition quiet {A} (p : P A) : Prop := forall s i s' r, p s i = Ok (s', r) -> same s s'.
Lemma town_quiet : forall A (p : P A) f, quiet p -> (forall s i s' r x, p s i = Ok (s', Done r x) -> tcells (f x) = []) -> town p f.
Proof.
  intros A p f Q T a s i s' r E O F. pose proof (Q _ _ _ _ E) as S. split; [apply run_same; auto|]. destruct r as [j x| |]; auto. rewrite (T _ _ _ _ _ E).
  split; [intros y []|intros _ k c V (y & _ & [])].
Qed.
Lemma quiet_pure : forall A (p : P A), pure p -> quiet p.
Proof. intros A p H s i s' r E. apply (pure_state _ H) in E. subst. apply same_refl. Qed.
Lemma vown_alt : forall p q, vown p -> vown q -> (forall s i s', p s i = Ok (s', Error) -> s' = s) -> vown (alt p q).
Proof.
  intros p q H H2 C a s i s' r E O F. unfold alt in E. apply rbind_ok in E as ([s1 r1] & E1 & E).
  destruct r1; [inversion E; subst; exact (H _ _ _ _ _ E1 O F)| |inversion E; subst; exact (H _ _ _ _ _ E1 O F)]. apply C in E1. subst s1. exact (H2 _ _ _ _ _ E O F).
Qed.
Lemma quiet_date : quiet date_time.
Proof.
  intros s i s' r E. unfold date_time in E. apply rbind_ok in E as ([s1 r1] & R1 & E).
  assert (s1 = s) by (eapply (pure_state date_time_internal); [apply pure_dti|exact R1]). subst s1.
  destruct r1; [|inversion E; subst; apply same_refl..]. destruct (datetime_validate a); [inversion E; subst; apply same_refl|].
  apply rbind_ok in E as ([[x fk] pk] & _ & E). inversion E; subst. repeat split.
Qed.
Lemma clean_date : clean date_time.
Proof.
  intros s i s' r E. unfold date_time in E. apply rbind_ok in E as ([s1 r1] & R1 & E).
  assert (s1 = s) by (eapply (pure_state date_time_internal); [apply pure_dti|exact R1]). subst s1.
  destruct r1; [|inversion E; subst; auto..]. destruct (datetime_validate a); [inversion E; subst; auto|].
  apply rbind_ok in E as ([[x fk] pk] & _ & E). inversion E; subst. auto.
Qed.
Lemma clean_pcell : forall A (p : P A) f, clean p -> forall s i s', pcell p f s i = Ok (s', Error) -> s' = s.
Proof.
  intros A p f H s i s' E. unfold pcell in E. apply (clean_act _ _ (complete p) (fun x s => Ok (new_cell s (f x)))) in E; auto. apply clean_complete. auto.
Qed.
Lemma vown_scalar : vown (alt (pcell date_time TDateTime)
    (alt (pcell float TFloat)
    (alt (pcell integer TInteger)
    (alt (pcell boolean TBoolean)
         (pcell string_p (fun v => v)))))).
Proof.
  repeat apply vown_alt; try (apply vown_pcell; apply town_quiet).
  all: try (intros; reflexivity).
  all: try (apply clean_pcell).
  - apply quiet_date.
  - apply quiet_pure. unfold float. pure_tac.
  - apply quiet_pure. unfold integer. pure_tac.
  - apply quiet_pure. unfold boolean. pure_tac.
  - intros s i s' r E. assert (GL : forall (acc : list cell) n x, same s x -> same s (add_lines n x)) by (intros acc n x X; eapply same_trans; [exact X|repeat split]).
    pose proof (i_string (fun _ x => same s x) GL [] _ _ _ _ (same_refl s) E) as X. destruct r; tauto.
  - intros s i s' r x E.
    pose proof (i_string (fun _ _ => True) (fun _ _ _ _ => Logic.I) [] _ _ _ _ Logic.I E) as (_ & y & st & ->). reflexivity.
  - apply clean_pure. unfold boolean. pure_tac.
  - apply clean_pure. unfold integer. pure_tac.
  - apply clean_pure. unfold float. pure_tac.
  - apply clean_date.
Qed.
Lemma vown_val_ : forall p, vown p -> vfault p -> vown (val_ p).
Proof.
  intros p PV PF a s i s' r H O F. unfold val_ in H. unfold alt at 1 in H. apply rbind_ok in H as ([s1 r1] & E1 & H).
  pose proof (vown_pcell _ (array_ p) (fun v => v) (town_array p PV PF)) as VA. pose proof (vown_pcell _ (inline_table_ p) (fun v => v) (town_inline p PV PF)) as VI.
  pose proof (VA _ _ _ _ _ E1 O F) as XA. destruct r1; [inversion H; subst; exact XA| |inversion H; subst; exact XA].
  destruct XA as [RA _]. unfold alt at 1 in H. apply rbind_ok in H as ([s2 r2] & E2 & H). pose proof RA as (O1 & _ & F1 & _).
  assert (HD : (head_not 91 i) \/ head_not 123 i) by (destruct i as [|x i]; [left; exact Logic.I|]; cbn [head_not]; lia).
  assert (S1 : head_not 91 i -> s1 = s) by (intros X; rewrite arr_err in E1 by auto; congruence).
  assert (S2 : head_not 123 i -> s2 = s1 /\ r2 = Error) by (intros X; rewrite inl_err in E2 by auto; inversion E2; auto).
  assert (D2 : match i with x :: _ => x = 91 \/ x = 123 | [] => False end \/ (head_not 91 i /\ head_not 123 i)).
  { destruct i as [|x i]; [right; split; exact Logic.I|]. cbn [head_not]. lia. }
  destruct r2 as [j2 c2| |].
  - inversion H; subst s' r. assert (head_not 91 i) by (destruct HD as [X|X]; auto; apply S2 in X as [_ X]; discriminate). rewrite S1 in E2 by auto. exact (VI _ _ _ _ _ E2 O F).
  - destruct D2 as [D2|[X Y]].
    + pose proof (VI _ _ _ _ _ E2 O1 F1) as [RI _]. pose proof RI as (O2 & _ & F2 & _). pose proof (vown_scalar _ _ _ _ _ H O2 F2) as [RS _].
      split; [eapply run_trans; [exact RA|eapply run_trans; eauto]|]. apply holds_scalar in H. destruct r; auto. destruct H as (_ & _ & _ & _ & OP).
      exfalso. destruct i as [|x i]; [exact D2|]. cbn [opens_value others In] in OP. lia.
    + rewrite S1 in * by auto. destruct (S2 Y) as [Z _]. rewrite Z in H. exact (vown_scalar _ _ _ _ _ H O F).
  - inversion H; subst s' r. pose proof (VI _ _ _ _ _ E2 O1 F1) as [RI _]. split; auto. eapply run_trans; eauto.
Qed.
Lemma vown_val : forall f, vown (val f).
Proof. induction f; [intros a s i s' r E; discriminate|]. apply vown_val_; auto. apply vfault_val. Qed.
Lemma vown_val_p : vown val_p.
Proof. intros a s i s' r. apply vown_val. Qed.
Lemma kv_ok : forall s i s' r, keyval_p s i = Ok (s', r) -> ok s -> ok s'.
Proof.
  intros s i s' r E O.
  assert (F : fronted (match front s with Ok a => a | _ => [] end) s) by (intros x X; rewrite X; auto).
  apply (kv_own val_p vown_val_p vfault_val_p _ _ _ _ _ E O) in F as [R _]. apply R.
Qed.

(** ** Headers *)
Lemma name_ok : forall k, name_text k -> okname k.
Proof.
  intros k [[NE B]|(x & _ & ->)].
  - destruct (exists_last NE) as (k0 & c & ->). exists k0, c. split; auto. apply Forall_app in B as [_ B]. inversion B; subst. unfold bare_char in *. lia.
  - exists ([34] ++ x), 34. split; [rewrite <- app_assoc; auto|lia].
Qed.
Lemma all_rev : forall A (Q : A -> Prop) l, Forall Q l -> Forall Q (rev l).
Proof. intros A Q l H. apply Forall_rev. auto. Qed.
Lemma all_pop : forall A (Q : A -> Prop) l, Forall Q l -> Forall Q (vpop l).
Proof.
  intros A Q l H. unfold vpop. destruct l as [|x l] using rev_ind; auto. rewrite removelast_last. apply Forall_app in H as [H _]. auto.
Qed.
Lemma all_push : forall A (Q : A -> Prop) l x, Forall Q l -> Q x -> Forall Q (vpush l x).
Proof. intros A Q l x H X. unfold vpush. apply Forall_app. auto. Qed.
Lemma all_sub : forall Q r rt ri a b, pop_until_sub r rt ri = (a, b) -> Forall Q rt -> Forall Q a.
Proof.
  intros Q r. induction rt as [|t rt IH]; intros ri a b H F; cbn [pop_until_sub] in H; [inversion H; auto|].
  inversion F; subst. destruct rt as [|u rt]; [inversion H; subst; auto|]. destruct (is_subtable_of r u); [inversion H; subst; auto|]. eapply IH; eauto.
Qed.
Lemma all_key : forall Q k rt ri a b, pop_until_key k rt ri = (a, b) -> Forall Q rt -> Forall Q a.
Proof.
  intros Q k. induction rt as [|t rt IH]; intros ri a b H F; cbn [pop_until_key] in H; [inversion H; auto|].
  inversion F; subst. destruct (str_eqb k _); [inversion H; subst; auto|]. eapply IH; eauto.
Qed.

Lemma table_ok_new : forall w k l, name_text k -> Forall name_text (map wk_key l) -> Forall okname (map wk_key (table_new w k l)).
Proof.
  intros w k l N F. unfold table_new. cbn [map wk_key]. constructor; [apply name_ok; auto|]. eapply Forall_impl; [|exact F]. apply name_ok.
Qed.
Lemma std_named : forall w1 w2 k l s s' t, name_text k -> Forall name_text (map wk_key l) -> std_table_act w1 w2 k l s = Ok (s', t) -> named s -> named s'.
Proof.
  intros w1 w2 k l s s' t NK NL H [N1 N2]. pose proof (table_ok_new {| ws1 := w1; ws2 := w2 |} _ _ NK NL) as OT.
  unfold std_table_act in H. apply rbind_ok in H as (s1 & K & H).
  unfold keychain_drop in K. destruct (Nat.ltb _ _); [discriminate|]. inversion K; subst s1; clear K. cbn [p_tables p_tindex p_map p_ovf p_line set_keychain] in H.
  set (tb := table_new {| ws1 := w1; ws2 := w2 |} k l) in *.
  match type of H with (let '(_, _) := ?x in _) = _ => destruct x as [ts ti] eqn:E1 end.
  assert (A1 : Forall oktable ts) by (destruct (is_top_std_table _ || _); inversion E1; subst; auto; apply all_pop; auto). clear E1.
  match type of H with (let '(_, _) := ?x in _) = _ => destruct x as [ts2 ti2] eqn:E2 end.
  assert (A2 : Forall oktable ts2).
  { destruct (vlast ts) as [l0|]; [|inversion E2; subst; auto]. destruct (str_eqb _ _); [inversion E2; subst; auto|].
    destruct (is_subtable_of _ _); [inversion E2; subst; auto|]. destruct (pop_until_sub _ _ _) as [x y] eqn:P. inversion E2; subst.
    apply all_rev. eapply all_sub; [exact P|]. apply all_rev. auto. }
  clear E2. apply rbind_ok in H as ([[err tk] pk] & _ & H). destruct err.
  - apply rbind_ok in H as ([[x atk] y] & _ & H). inversion H; subst. split; auto.
  - apply rbind_ok in H as (m1 & _ & H). apply rbind_ok in H as (m2 & _ & H). cbn [new_cell] in H. apply rbind_ok in H as (m3 & _ & H). inversion H; subst.
    split; [|exact OT]. cbn. apply all_push; auto.
Qed.
Lemma arr_named : forall w1 w2 k l s s' t, name_text k -> Forall name_text (map wk_key l) -> array_table_act w1 w2 k l s = Ok (s', t) -> named s -> named s'.
Proof.
  intros w1 w2 k l s s' t NK NL H [N1 N2]. pose proof (table_ok_new {| ws1 := w1; ws2 := w2 |} _ _ NK NL) as OT.
  unfold array_table_act in H. apply rbind_ok in H as (s1 & K & H).
  unfold keychain_drop in K. destruct (Nat.ltb _ _); [discriminate|]. inversion K; subst s1; clear K. cbn [p_tables p_tindex p_map p_ovf p_line set_keychain set_array_error] in H.
  set (tb := table_new {| ws1 := w1; ws2 := w2 |} k l) in *. assert (OT2 : oktable (TArrayOf tb)) by exact OT.
  match type of H with (let '(_, _) := ?x in _) = _ => destruct x as [ts ti] eqn:E1 end.
  assert (A1 : Forall oktable ts) by (destruct (is_top_std_table _); inversion E1; subst; auto; apply all_pop; auto). clear E1.
  apply rbind_ok in H as ([[m ts2] ti2] & M & H).
  assert (A2 : Forall oktable ts2).
  { destruct (vlast ts) as [l0|].
    - destruct (str_eqb _ _).
      { apply rbind_ok in M as ([m1 ti1] & _ & M). inversion M; subst; auto. }
      destruct (is_subtable_of _ _).
      { apply rbind_ok in M as (m1 & _ & M). inversion M; subst. apply all_push; auto. }
      destruct (pop_until_key _ _ _) as [x y] eqn:P. assert (A : Forall oktable (rev x)) by (apply all_rev; eapply all_key; [exact P|]; apply all_rev; auto).
      destruct (rev x) as [|z zs].
      + apply rbind_ok in M as (m1 & _ & M). apply rbind_ok in M as (pk & _ & M). destruct (hmem pk m1).
        * apply rbind_ok in M as ([m2 ti1] & _ & M). inversion M; subst. apply all_push; auto.
        * inversion M; subst. apply all_push; auto.
      + apply rbind_ok in M as ([m1 ti1] & _ & M). inversion M; subst; auto.
    - apply rbind_ok in M as (m1 & _ & M). inversion M; subst. apply all_push; auto. }
  clear M. apply rbind_ok in H as ([[v fk] pk] & _ & H). destruct v; cbn [negb] in H; inversion H; subst; split; auto.
Qed.
Lemma ok_add : forall s s', ok s -> named s' -> s.(p_next) <= s'.(p_next) ->
  (sub s.(p_map) s'.(p_map) \/ exists c, adds c s.(p_map) s'.(p_map) /\ (forall x, In x (ids (subcells c)) -> s.(p_next) <= x < s'.(p_next))) -> ok s'.
Proof.
  intros s s' (K & B & _) N L [S|(c & (k0 & A) & FR)]; (split; [|split; [|exact N]]).
  - eapply kin_sub; eauto.
  - intros k c V x I. apply S in V. specialize (B _ _ V _ I). lia.
  - intros k1 k2 c1 c2 V1 V2. apply A in V1, V2. destruct V1 as [V1|[-> ->]], V2 as [V2|[-> ->]].
    + eapply K; eauto.
    + intros (x & X1 & X2). specialize (B _ _ V1 _ X1). apply FR in X2. lia.
    + intros (x & X2 & X1). specialize (B _ _ V2 _ X1). apply FR in X2. lia.
    + intros _. left. constructor.
  - intros k c1 V x I. apply A in V as [V|[-> ->]]; [specialize (B _ _ V _ I)|apply FR in I]; lia.
Qed.
Lemma std_ok : forall w1 w2 k l s s' t, name_text k -> Forall name_text (map wk_key l) -> std_table_act w1 w2 k l s = Ok (s', t) -> ok s -> ok s'.
Proof.
  intros w1 w2 k l s s' t NK NL H O. assert (N : named s') by (eapply std_named; eauto; apply O). apply std_adds in H as [[M X]|[X A]]; eapply ok_add; eauto; try lia.
  - left. rewrite M. apply sub_refl.
  - right. eexists. split; [exact A|]. cbn. intros x [<-|[]]. lia.
Qed.
Lemma arr_ok : forall w1 w2 k l s s' t, name_text k -> Forall name_text (map wk_key l) -> array_table_act w1 w2 k l s = Ok (s', t) -> ok s -> ok s'.
Proof.
  intros w1 w2 k l s s' t NK NL H O. assert (N : named s') by (eapply arr_named; eauto; apply O). apply arr_sub in H as [X A]. eapply ok_add; eauto; lia.
Qed.
Lemma key_same : forall s i s' r, key_p s i = Ok (s', r) -> same s s'.
Proof.
  intros s i s' r E. assert (GC : forall (acc : list cell) kc x, same s x -> same s (set_keychain kc x)) by (intros acc kc x X; eapply same_trans; [exact X|repeat split]).
  pose proof (n_key (fun (_ : list cell) x => same s x) GC [] s i s' r (same_refl s) E) as X. destruct r; exact X.
Qed.
Lemma subkeys_same : forall s i s' r, table_subkeys s i = Ok (s', r) -> same s s'.
Proof.
  assert (S1 : forall s i s' r, table_subkey s i = Ok (s', r) -> same s s').
  { intros s i s' r E. unfold table_subkey in E.
    assert (PU : forall A (p : P A) s i s' r, pure p -> p s i = Ok (s', r) -> s' = s) by (intros A p x y z w X Y; eapply (pure_state p); eauto).
    apply bind_cases in E as [(r1 & E1 & ND)|(s1 & i1 & u & E1 & E)]; apply PU in E1; try (unfold ws; pure_tac; fail); subst; [apply same_refl|].
    apply bind_cases in E as [(r1 & E1 & ND)|(s1 & i2 & u1 & E1 & E)]; apply PU in E1; try (unfold ws; pure_tac; fail); subst; [apply same_refl|].
    apply bind_cases in E as [(r1 & E1 & ND)|(s1 & i3 & u2 & E1 & E)]; apply PU in E1; try (unfold ws; pure_tac; fail); subst; [apply same_refl|].
    apply bind_cases in E as [(r1 & E1 & ND)|(s1 & i4 & u3 & E1 & E)]; apply key_same in E1; auto. inversion E; subst; auto. }
  intros s i. unfold table_subkeys, many0. generalize (S (length i)). intros n. revert s i. induction n; intros s i s' r E; [discriminate|]. cbn [many_loop] in E.
  destruct i as [|c i]; [inversion E; apply same_refl|]. apply rbind_ok in E as ([s1 r1] & E1 & E). apply S1 in E1. destruct r1; [|inversion E; subst; auto..].
  destruct (Nat.eqb _ _); [inversion E; subst; auto|]. apply rbind_ok in E as ([s2 r2] & E2 & E). inversion E; subst. apply IHn in E2. eapply same_trans; eauto.
Qed.
Lemma header_ok : forall o c f, (forall w1 w2 k l s s' t, name_text k -> Forall name_text (map wk_key l) -> f w1 w2 k l s = Ok (s', t) -> ok s -> ok s') ->
  forall s i s' (r : ires table_type), (tag o ;;; (w1 <-- ws ;; (k <-- key_p ;; (subkeys <-- table_subkeys ;; (w2 <-- ws ;; (tag c ;;; act (f w1 w2 k subkeys))))))) s i = Ok (s', r) -> ok s -> ok s'.
Proof.
  intros o c f H s i s' r E O.
  assert (PU : forall A (p : P A) s i s' r, pure p -> p s i = Ok (s', r) -> s' = s) by (intros A p x y z w X Y; eapply (pure_state p); eauto).
  apply bind_cases in E as [(r1 & E1 & ND)|(s1 & i1 & u & E1 & E)]; apply PU in E1; try (unfold ws; pure_tac; fail); subst; auto.
  apply bind_cases in E as [(r1 & E1 & ND)|(s1 & i2 & w1 & E1 & E)]; apply PU in E1; try (unfold ws; pure_tac; fail); subst; auto.
  apply bind_cases in E as [(r1 & E1 & ND)|(s1 & i3 & k & E1 & E)]; [apply key_same in E1; eapply same_ok; eauto|].
  pose proof (key_text _ _ _ _ _ E1) as [_ NK]. apply key_same in E1. assert (O1 : ok s1) by (eapply same_ok; eauto).
  apply bind_cases in E as [(r1 & E2 & ND)|(s2 & i4 & l & E2 & E)]; [apply subkeys_same in E2; eapply same_ok; eauto|].
  pose proof (subkeys_names _ _ _ _ _ E2) as NL. apply subkeys_same in E2. assert (O2 : ok s2) by (eapply same_ok; eauto).
  apply bind_cases in E as [(r1 & E3 & ND)|(s3 & i5 & w2 & E3 & E)]; apply PU in E3; try (unfold ws; pure_tac; fail); subst; auto.
  apply bind_cases in E as [(r1 & E3 & ND)|(s3 & i6 & u2 & E3 & E)]; apply PU in E3; try (unfold ws; pure_tac; fail); subst; auto.
  unfold act in E. apply rbind_ok in E as ([s4 t] & E & X). inversion X; subst. eapply H; eauto.
Qed.

(** ** The document *)
Definition keeps {A} (p : P A) : Prop := hoare ok p ok (fun _ => ok).
Lemma keeps_of : forall A (p : P A), (forall s i s' r, p s i = Ok (s', r) -> ok s -> ok s') -> keeps p.
Proof. intros A p H s i s' r O E. specialize (H _ _ _ _ E O). destruct r; auto. Qed.
Lemma keeps_pure : forall A (p : P A), pure p -> keeps p.
Proof. intros A p H. apply h_pure; auto. Qed.
Lemma keeps_table : keeps table_p.
Proof.
  unfold table_p, keeps. apply h_alt; apply h_complete; apply keeps_of; intros s i s' r.
  - apply header_ok. exact arr_ok.
  - apply header_ok. exact std_ok.
Qed.
Lemma keeps_expression : keeps expression_p.
Proof.
  unfold keeps, expression_p. repeat apply h_alt; apply h_complete.
  - unfold table_comment. repeat (eapply h_bind; [first [apply keeps_table|apply keeps_pure; unfold ws, comment; pure_tac]|intros]). apply h_ret. auto.
  - unfold keyval_comment. repeat (eapply h_bind; [first [apply (keeps_of _ _ kv_ok)|apply keeps_pure; unfold ws, comment; pure_tac]|intros]). apply h_ret. auto.
  - unfold ws_comment. repeat (eapply h_bind; [apply keeps_pure; unfold ws, comment; pure_tac|intros]). apply h_ret. auto.
  - unfold ws_expr. repeat (eapply h_bind; [apply keeps_pure; unfold ws, comment; pure_tac|intros]). apply h_ret. auto.
Qed.
Lemma keeps_toml : keeps toml_p.
Proof.
  unfold keeps, toml_p. eapply h_bind; [apply keeps_expression|]. intros e. apply h_bind with (Q1 := fun _ => ok); [|intros l; apply h_ret; auto].
  set (G := fun (_ : list cell) s => ok s).
  assert (Y : ispec G nl_expression_p (fun _ => [])).
  { intros acc. unfold nl_expression_p. eapply h_bind; [apply (n_newline G)|].
    { unfold G. intros acc' n s O. eapply same_ok; [|exact O]. repeat split. }
    intros nl. eapply h_bind; [apply keeps_expression|]. intros x. apply h_ret. auto. }
  exact (i_many0 G ltac:(unfold G; auto) _ nl_expression_p (fun _ => []) Y []).
Qed.
Lemma ok_new : forall ovf, ok (new_parser ovf).
Proof.
  intros ovf. assert (V : forall k c, valof (p_map (new_parser ovf)) k = Some c -> False).
  { intros k c V. cbn [new_parser p_map] in V. rewrite valof_put in V. destruct (str_eqb k root_key); inversion V. }
  split; [|split; [|split]].
  - intros k1 k2 c1 c2 V1. destruct (V _ _ V1).
  - intros k c V1. destruct (V _ _ V1).
  - constructor.
  - exact Logic.I.
Qed.
Lemma ok_parse : forall s i s' r, parse s i = Ok (s', r) -> ok s -> ok s'.
Proof.
  intros s i s' r P O. unfold parse in P. apply rbind_ok in P as ([s1 r1] & E & P). pose proof (keeps_toml _ _ _ _ O E) as X. destruct r1; inversion P; subst; auto.
Qed.
