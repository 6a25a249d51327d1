(** What set_value does to the values above and below its key. *)
From Coq Require Import Lia ZifyBool ZifyNat ZifyN.
From Verif Require Import TotalFacts.
From Verif Require Import Str Regex Types Ast State Nom Keys Grammar Api Facts Spec RegexFacts NomFacts DateFacts RoundTrip Effects ScalarFacts ParseFacts WalkFacts IdFacts WriteFacts
  ApiSpec ApiFacts SetFacts UpdateFacts SafeFacts CtorFacts OutcomeSpec OutcomeFacts TabSetFacts OwnFacts FrameFacts AboveSpec.

(** ** The value of a part *)
Lemma rmap_split : forall A B (f : A -> res B) l1 x l2 r, rmap f (l1 ++ x :: l2) = Ok r ->
  exists r1 y r2, r = r1 ++ y :: r2 /\ length r1 = length l1 /\ f x = Ok y /\
    forall x' y', f x' = Ok y' -> rmap f (l1 ++ x' :: l2) = Ok (r1 ++ y' :: r2).
Proof.
  intros A B f. induction l1 as [|a l1 IH]; intros x l2 r H.
  - cbn [app] in H. apply ApiFacts.rmap_cons in H as (y & b & E & R & ->). exists [], y, b. repeat split; auto. intros x' y' E'. cbn [app]. apply rmap_eq; auto.
  - cbn [app] in H. apply ApiFacts.rmap_cons in H as (y & b & E & R & ->). destruct (IH _ _ _ R) as (r1 & z & r2 & -> & L & Z & P).
    exists (y :: r1), z, r2. split; [reflexivity|]. split; [cbn [length]; congruence|]. split; auto. intros x' y' E'. cbn [app]. apply rmap_eq; auto.
Qed.
Lemma nth_map_split : forall A B (f : A -> B) l i y, nth_error (map f l) i = Some y -> exists l1 x l2, l = l1 ++ x :: l2 /\ length l1 = i /\ f x = y.
Proof.
  intros A B f l i y H. rewrite nth_error_map in H. destruct (nth_error l i) as [x|] eqn:E; [|discriminate]. injection H as <-.
  apply nth_error_split in E as (l1 & l2 & -> & L). eauto 6.
Qed.
Lemma loc_at : forall K c0 k c, loc K c0 k c -> forall V, to_val c0.(c_val) = Ok V -> exists x, to_val c.(c_val) = Ok x /\ at_name K V k x.
Proof.
  intros K c0 k c H. induction H as [K c|K id t i c' k c E H IH]; intros V T; [exists V; split; auto; constructor|].
  cbn [c_val] in T. destruct t; try (destruct i; discriminate); cbn [kids] in E; apply nth_map_split in E as (l1 & y & l2 & -> & L & <-); cbn [to_val] in T; apply rbind_ok in T as (r & R & T); injection T as <-.
  - apply rmap_split in R as (r1 & z & r2 & -> & LR & Z & _). destruct (IH _ Z) as (x & X & A). exists x. split; auto. constructor.
    rewrite LR, L. exact A.
  - apply rmap_split in R as (r1 & z & r2 & -> & LR & Z & _). apply rbind_ok in Z as (z0 & Z & Q). injection Q as <-. destruct (IH _ Z) as (x & X & A). exists x. split; auto. constructor.
    cbn [kidkey] in A. rewrite nth_error_app2, L, Nat.sub_diag in A by lia. exact A.
Qed.

(** ** Writes inside one part *)
Definition av_set (av : array_value) (c : cell) : array_value := ArrayValue c av.(av_sep) av.(av_nls).
Definition tk_set (tk : table_keyval) (c : cell) : table_keyval := TableKeyVal (KeyVal tk.(tk_kv).(kv_key) tk.(tk_kv).(kv_sep) c) tk.(tk_sep) tk.(tk_nls).
Lemma upds_array : forall ws i l1 av l2 n1 n2 c,
  Forall (fun w => fst w <> i /\ (forall b, In b (l1 ++ l2) -> ~ In (fst w) (ids (subcells b.(av_val))))) ws ->
  upds ws (Cell i (TArray (l1 ++ av_set av c :: l2) n1 n2)) = Cell i (TArray (l1 ++ av_set av (upds ws c) :: l2) n1 n2).
Proof.
  unfold upds. induction ws as [|[id nv] ws IH]; intros i l1 av l2 n1 n2 c F; auto. inversion F as [|z l [N A] F2]; subst. cbn [fold_left fst snd] in *.
  rewrite <- IH by auto. f_equal. rewrite upd_c_eq. cbn [c_id c_val]. replace (i =? id) with false by lia. cbn [upd_tval]. do 2 f_equal.
  rewrite map_app. cbn [map]. assert (S : forall l, (forall b, In b l -> In b (l1 ++ l2)) ->
    map (fun av0 : array_value => ArrayValue (upd_cell (upd_tval id nv) id nv (av_val av0)) (av_sep av0) (av_nls av0)) l = l).
  { intros l I. apply map_same. intros b J. fold (upd_c id nv (av_val b)). rewrite upd_c_absent by auto. destruct b; auto. }
  rewrite !S by (intros b J; apply in_app_iff; auto). reflexivity.
Qed.
Lemma upds_inline : forall ws i l1 tk l2 w0 c,
  Forall (fun w => fst w <> i /\ (forall b, In b (l1 ++ l2) -> ~ In (fst w) (ids (subcells b.(tk_kv).(kv_val))))) ws ->
  upds ws (Cell i (TInlineTable (l1 ++ tk_set tk c :: l2) w0)) = Cell i (TInlineTable (l1 ++ tk_set tk (upds ws c) :: l2) w0).
Proof.
  unfold upds. induction ws as [|[id nv] ws IH]; intros i l1 tk l2 w0 c F; auto. inversion F as [|z l [N A] F2]; subst. cbn [fold_left fst snd] in *.
  rewrite <- IH by auto. f_equal. rewrite upd_c_eq. cbn [c_id c_val]. replace (i =? id) with false by lia. cbn [upd_tval]. do 2 f_equal.
  rewrite map_app. cbn [map]. assert (S : forall l, (forall b, In b l -> In b (l1 ++ l2)) ->
    map (fun tk0 : table_keyval => TableKeyVal (KeyVal (kv_key (tk_kv tk0)) (kv_sep (tk_kv tk0)) (upd_cell (upd_tval id nv) id nv (kv_val (tk_kv tk0)))) (tk_sep tk0) (tk_nls tk0)) l = l).
  { intros l I. apply map_same. intros b J. fold (upd_c id nv (kv_val (tk_kv b))). rewrite upd_c_absent by auto. destruct b as [[] ? ?]; auto. }
  rewrite !S by (intros b J; apply in_app_iff; auto). reflexivity.
Qed.
Lemma other_kids : forall t j c' x, NoDup (ids (tcells t)) -> nth_error (kids t) j = Some c' -> In x (ids (subcells c')) ->
  forall a b c, kids t = a ++ c :: b -> length a = j -> forall d, In d (a ++ b) -> ~ In x (ids (subcells d)).
Proof.
  intros t j c' x N E X a b c K L d D Y. rewrite tcells_kids in N.
  assert (Z : exists i, i <> j /\ nth_error (kids t) i = Some d).
  { rewrite K. apply in_app_iff in D as [D|D]; apply In_nth_error in D as (i & I).
    - exists i. assert (i < length a)%nat by (apply nth_error_Some; congruence). split; [lia|]. rewrite nth_error_app1; auto.
    - exists (S (length a) + i)%nat. split; [lia|]. rewrite nth_error_app2 by lia. replace (S (length a) + i - length a)%nat with (S i) by lia. exact I. }
  destruct Z as (i & NE & I). apply NE. eapply kid_dup; [exact N|exact I|exact E|exact Y|exact X].
Qed.
Lemma loc_put : forall K c0 k c, loc K c0 k c -> forall ws V w, NoDup (ids (subcells c0)) -> Forall (fun w => In (fst w) (ids (subcells c))) ws ->
  to_val c0.(c_val) = Ok V -> to_val (upds ws c).(c_val) = Ok w ->
  exists x V', to_val c.(c_val) = Ok x /\ put_name K V k x w V' /\ to_val (upds ws c0).(c_val) = Ok V'.
Proof.
  intros K c0 k c H. induction H as [K c|K id t i c' k c E H IH]; intros ws V w N F T W; [exists V, w; repeat split; auto; constructor|].
  rewrite ids_subcells in N. cbn [c_id c_val] in N, T. inversion N as [|y l N1 N2]; subst.
  assert (NC : NoDup (ids (subcells c'))) by (eapply kid_nodup; eauto).
  assert (FN : Forall (fun w => fst w <> id) ws).
  { eapply Forall_impl; [|exact F]. cbv beta. intros z Z Q. rewrite Q in Z. apply N1. eapply kid_ids; eauto. eapply loc_ids; eauto. }
  assert (FO : forall a b d, kids t = a ++ d :: b -> length a = i -> Forall (fun w => forall e, In e (a ++ b) -> ~ In (fst w) (ids (subcells e))) ws).
  { intros a b d KE L. eapply Forall_impl; [|exact F]. cbv beta. intros z Z. eapply other_kids; eauto. eapply loc_ids; eauto. }
  destruct t; try (destruct i; discriminate); cbn [kids] in E; apply nth_map_split in E as (l1 & y & l2 & -> & L & EY); cbn [to_val] in T; apply rbind_ok in T as (r & R & T); injection T as <-.
  - apply rmap_split in R as (r1 & z & r2 & -> & LR & Z & P). rewrite EY in Z. destruct (IH _ _ _ NC F Z W) as (x & V' & X & PN & TV).
    exists x, (VArray (r1 ++ V' :: r2)). split; auto. split; [constructor; rewrite LR, L; exact PN|].
    replace y with (av_set y c') by (subst c'; destruct y; auto). rewrite upds_array.
    + cbn [c_val to_val]. rewrite (P (av_set y (upds ws c')) V') by exact TV. reflexivity.
    + cbn [kids] in FO. rewrite map_app in FO. cbn [map] in FO. specialize (FO _ _ _ eq_refl). rewrite map_length in FO. specialize (FO L).
      rewrite Forall_forall in *. intros u U. split; auto. intros b B. apply FO; auto. rewrite <- map_app. apply in_map with (f := av_val). exact B.
  - apply rmap_split in R as (r1 & z & r2 & -> & LR & Z & P). apply rbind_ok in Z as (z0 & Z & Q). injection Q as <-. rewrite EY in Z. destruct (IH _ _ _ NC F Z W) as (x & V' & X & PN & TV).
    exists x, (VInlineTable (r1 ++ (kv_key (tk_kv y), V') :: r2)). split; auto. split.
    + constructor. cbn [kidkey] in PN. rewrite nth_error_app2, L, Nat.sub_diag in PN by lia. exact PN.
    + replace y with (tk_set y c') by (subst c'; destruct y as [[] ? ?]; auto). rewrite upds_inline.
      * cbn [c_val to_val]. rewrite (P (tk_set y (upds ws c')) (kv_key (tk_kv y), V')); [reflexivity|]. cbn [tk_set tk_kv kv_val kv_key]. rewrite TV. reflexivity.
      * cbn [kids] in FO. rewrite map_app in FO. cbn [map] in FO. specialize (FO _ _ _ eq_refl). rewrite map_length in FO. specialize (FO L).
        rewrite Forall_forall in *. intros u U. split; auto. intros b B. apply FO; auto. rewrite <- map_app. apply in_map with (f := fun tk => kv_val (tk_kv tk)). exact B.
Qed.

(** ** What an accepted update writes *)
Lemma get_value_cell : forall s k V, get_value s k = Ok (Some V) <-> exists c, valof s.(p_map) k = Some c /\ to_val c.(c_val) = Ok V.
Proof.
  intros s k V. unfold get_value, valof. destruct (hget k (p_map s)) as [[[c|] sb]|]; cbn [hv_value].
  - split.
    + intros H. apply rbind_ok in H as (x & X & H). injection H as <-. eauto.
    + intros (c0 & Q & T). injection Q as <-. rewrite T. reflexivity.
  - split; [discriminate|intros (c & Q & _); discriminate].
  - split; [discriminate|intros (c & Q & _); discriminate].
Qed.
Lemma not_both : forall a b, below a b -> covers b a -> False.
Proof. intros a b (c & r & -> & _) [Q|(c' & r' & Q & _)]; apply (f_equal (@length N)) in Q; rewrite !app_length in Q; cbn [length] in Q; lia. Qed.
Lemma set_writes : forall h s key v s', wf h s -> set_value s key v = Ok (s', true) ->
  exists c ws, valof s.(p_map) key = Some c /\ Forall (fun w => In (fst w) (ids (subcells c))) ws /\
  (forall k, k <> key -> ~ below key k -> valof s'.(p_map) k = match valof s.(p_map) k with Some d => Some (upds ws d) | None => None end) /\
  (forall k d', valof s'.(p_map) k = Some d' -> (exists d, valof s.(p_map) k = Some d /\ d' = upds ws d) \/ (below key k /\ loc key (upds ws c) k d')) /\
  (forall k d old, to_val c.(c_val) = Ok old -> loc key c k d -> Exists (fun w => In (fst w) (ids (subcells d))) ws -> In (c_id d) (ids (subcells (upds ws c)))).
Proof.
  intros h s key v s' W H. apply set_value_cases in H. remember true as b eqn:QB. destruct H as [V|c ws V SS R|c ks n V SS KS C|c ks n nv m s1 V SS KS C L E R]; try discriminate.
  - exists c, ws. split; auto. split; [eapply Forall_impl; [|eapply replace_writes; eauto]; cbv beta; intros w [_ I]; destruct c; exact I|].
    split; [intros; apply map_writes|]. split.
    + intros k d' H. rewrite map_writes in H. left. destruct (valof (p_map s) k) as [d|]; [|discriminate]. injection H as <-. eauto.
    + intros k d old T LC _. apply (structure_iff _ _ v T) in SS as [S1 S2]. destruct (fill_ok _ _ _ (c_id c) T S1 S2) as (ws' & FI).
      pose proof (fi_ws _ _ _ _ _ FI) as E. rewrite R in E. injection E as <-. pose proof (wf_cells_nodup _ _ _ _ W V) as ND.
      assert (I : In (c_id d) (ids (subcells c))) by (eapply loc_ids; [exact LC|left; auto]). destruct c as [i t]. cbn [c_id c_val] in *.
      rewrite (fi_upd _ _ _ _ _ FI) by exact ND. rewrite ids_subcells in *. cbn [c_id c_val] in *. rewrite (fi_ids _ _ _ _ _ FI). exact I.
  - exists c, [(c_id c, nv)]. split; auto. split; [constructor; [left; auto|constructor]|].
    assert (UP : forall k, valof s1.(p_map) k = match valof (removed ks s.(p_map)) k with Some d => Some (upds [(c_id c, nv)] d) | None => None end).
    { intros k. subst s1. cbn [write p_map set_root set_map set_next]. rewrite valof_upd. reflexivity. }
    assert (KEEP : forall k, ~ below key k -> valof (removed ks s.(p_map)) k = valof s.(p_map) k).
    { intros k NB. unfold valof. rewrite removed_keep; auto. intros I. destruct (get_all_subkeys_ok (p_map s) key) as (l & E3 & F). rewrite KS in E3. inversion E3; subst.
      rewrite Forall_forall in F. auto. }
    assert (UC : upds [(c_id c, nv)] c = Cell (c_id c) nv) by (unfold upds; cbn [fold_left fst snd]; rewrite upd_c_eq, N.eqb_refl; auto).
    cbn [p_map set_map set_next]. split; [|split].
    + intros k Q NB. unfold valof. erewrite rebuild_only by eauto. fold (valof s1.(p_map) k). rewrite UP, KEEP by auto. reflexivity.
    + intros k d' Vd. eapply rebuild_loc_top in R as [X|(i & c' & I & X)]; eauto.
      * left. rewrite UP in X. destruct (valof (removed ks (p_map s)) k) as [d|] eqn:Ek; [|discriminate]. injection X as <-. apply removed_sub in Ek. eauto.
      * right. rewrite UC. split; [|econstructor; eauto].
        destruct (loc_covers _ _ _ _ X) as [<-|Y]; [eapply kidkey_below; eauto|]. eapply SetFacts.below_trans; [eapply kidkey_below; eauto|exact Y].
    + intros k d old _ LC EX. inversion EX as [? ? I|? ? I]; subst; [|inversion I]. cbn [fst] in I. pose proof (wf_cells_nodup _ _ _ _ W V) as ND.
      apply loc_self in LC as [-> ->]; auto. rewrite UC. left. auto.
Qed.
Lemma not_self : forall k, ~ below k k.
Proof. intros k X. eapply not_both; [exact X|apply covers_refl]. Qed.
Lemma key_writes : forall s s' key c ws c', valof s.(p_map) key = Some c -> valof s'.(p_map) key = Some c' ->
  (forall k d', valof s'.(p_map) k = Some d' -> (exists d, valof s.(p_map) k = Some d /\ d' = upds ws d) \/ (below key k /\ loc key (upds ws c) k d')) -> c' = upds ws c.
Proof. intros s s' key c ws c' V V' OR. apply OR in V' as [(d & D & ->)|[B _]]; [congruence|]. apply not_self in B. destruct B. Qed.

Lemma above_value : forall ovf s key v s' k V w, reach ovf s -> set_value s key v = Ok (s', true) -> below k key -> get_value s k = Ok (Some V) -> get_value s' key = Ok (Some w) ->
  get_value s' k = Ok (Some V) \/ exists x V', get_value s key = Ok (Some x) /\ put_name k V key x w V' /\ get_value s' k = Ok (Some V').
Proof.
  intros ovf s key v s' k V w R H B GV GW. pose proof (reach_ok _ _ R) as (K & _ & _). destruct (reach_wf _ _ R) as (h & W).
  destruct (set_writes _ _ _ _ _ W H) as (c & ws & VC & F & ST & OR & _). apply get_value_cell in GV as (d & VD & TD). apply get_value_cell in GW as (c' & VC' & TC').
  assert (NB : ~ below key k) by (intros X; eapply not_both; [exact B|right; exact X]).
  assert (NK : k <> key) by (intros ->; eapply not_self; eauto).
  pose proof (key_writes _ _ _ _ _ _ VC VC' OR) as ->.
  assert (VS : valof s'.(p_map) k = Some (upds ws d)) by (rewrite ST, VD by auto; auto).
  assert (D : shares d c \/ ~ shares d c).
  { destruct (existsb (fun x => existsb (N.eqb x) (ids (subcells c))) (ids (subcells d))) eqn:Q; [left|right].
    - apply existsb_exists in Q as (x & X1 & Q). apply existsb_exists in Q as (y & Y & Q). apply N.eqb_eq in Q. subst y. exists x. auto.
    - intros (x & X1 & X2). apply Bool.not_true_iff_false in Q. apply Q. apply existsb_exists. exists x. split; auto. apply existsb_exists. exists x. split; auto. apply N.eqb_refl. }
  destruct D as [D|D].
  - right. destruct (K _ _ _ _ VD VC D) as [L|L]; [|exfalso; apply loc_covers in L; eapply not_both; eauto].
    destruct (loc_put _ _ _ _ L ws V w (wf_cells_nodup _ _ _ _ W VD) F TD TC') as (x & V' & X & P & T).
    exists x, V'. split; [apply get_value_cell; eauto|]. split; auto. apply get_value_cell. eauto.
  - left. apply get_value_cell. exists d. split; auto. rewrite VS, upds_absent; auto. eapply Forall_impl; [|exact F]. cbv beta. intros u U I. apply D. exists (fst u). auto.
Qed.

Lemma below_value : forall ovf s key old v s' k x w, reach ovf s -> get_value s key = Ok (Some old) -> set_value s key v = Ok (s', true) -> below key k ->
  get_value s' k = Ok (Some x) -> get_value s' key = Ok (Some w) -> at_name key w k x \/ get_value s k = Ok (Some x).
Proof.
  intros ovf s key old v s' k x w R GO H B GV GW. pose proof (reach_ok _ _ R) as (K & _ & _). assert (R' : reach ovf s') by (eapply R_set; eauto). pose proof (reach_ok _ _ R') as (K' & _ & _).
  destruct (reach_wf _ _ R) as (h & W). destruct (set_writes _ _ _ _ _ W H) as (c & ws & VC & F & _ & OR & SH).
  apply get_value_cell in GV as (d' & VD' & TD). apply get_value_cell in GW as (c' & VC' & TC'). apply get_value_cell in GO as (c0 & VC0 & TC0). rewrite VC in VC0. injection VC0 as <-.
  pose proof (key_writes _ _ _ _ _ _ VC VC' OR) as ->.
  assert (L : loc key (upds ws c) k d' -> at_name key w k x) by (intros L; destruct (loc_at _ _ _ _ L _ TC') as (y & Y & A); congruence).
  destruct (OR _ _ VD') as [(d & VD & ->)|[_ Y]]; [|auto].
  assert (D : Exists (fun w => In (fst w) (ids (subcells d))) ws \/ ~ Exists (fun w => In (fst w) (ids (subcells d))) ws).
  { destruct (Exists_dec (fun w : N * tval => In (fst w) (ids (subcells d))) ws) as [D|D]; auto. intros u. apply in_dec, N.eq_dec. }
  destruct D as [D|D].
  - left. apply L. assert (SC : shares c d).
    { apply Exists_exists in D as (u & U & I). rewrite Forall_forall in F. exists (fst u). auto. }
    assert (LC : loc key c k d) by (destruct (K _ _ _ _ VC VD SC) as [Z|Z]; auto; exfalso; apply loc_covers in Z; eapply not_both; eauto).
    destruct (K' _ _ _ _ VC' VD') as [Z|Z]; auto; [|exfalso; apply loc_covers in Z; eapply not_both; eauto].
    exists (c_id d). split; [eapply SH; eauto|]. rewrite <- (upds_id ws d). left. auto.
  - right. apply get_value_cell. exists d. split; auto. rewrite upds_absent in TD; auto. apply Forall_forall. intros u U I. apply D. apply Exists_exists. eauto.
Qed.
