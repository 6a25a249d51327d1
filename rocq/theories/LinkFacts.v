(** In an accepted document the names of the parts of a value lead into that value, and updates
    keep it so. *)
From Coq Require Import Lia ZifyBool ZifyNat ZifyN.
From Verif Require Import TotalFacts.
From Verif Require Import Str Regex Types Ast State Nom Keys Grammar Api Facts Spec RegexFacts NomFacts DateFacts RoundTrip Effects ScalarFacts ParseFacts WalkFacts IdFacts WriteFacts
  ApiSpec ApiFacts SetFacts UpdateFacts SafeFacts CtorFacts OutcomeSpec OutcomeFacts TabSetFacts DocSpec DotSpec ReachSpec KidsSpec.
From Verif Require NestFacts LayFacts ReachFacts KidsFacts StaySpec.
From Verif Require Import OwnFacts FrameFacts AboveSpec AboveFacts.

(** ** What an update writes, whatever its answer *)
Lemma rebuild_key : forall t id key m m', rebuild_vector t id key true m = Ok m' -> ~ leaf t -> valof m' key = valof m key.
Proof.
  intros t id key m m' E L. destruct t; try (exfalso; apply L; exact Logic.I); cbn [rebuild_vector] in E.
  - destruct (hget key m) as [hv|] eqn:G; [|discriminate]. unfold valof. erewrite rfold_only; [| |exact E].
    + rewrite hget_hput_same, G. reflexivity.
    + cbv beta. intros i x ma mb _ E1. eapply rebuild_only; [exact E1| |]; intros Q.
      * apply (not_self key). rewrite Q at 2. apply below_index.
      * eapply not_both; [apply (below_index key i)|right; exact Q].
  - destruct (hget key m) as [hv|] eqn:G; [|discriminate]. unfold valof. erewrite rfold_only; [| |exact E].
    + rewrite hget_hput_same, G. reflexivity.
    + cbv beta. intros i x ma mb _ E1. eapply rebuild_only; [exact E1| |]; intros Q.
      * apply (not_self key). rewrite Q at 2. apply below_dot.
      * eapply not_both; [apply (below_dot key (kv_key (tk_kv x)))|right; exact Q].
Qed.
Lemma set_frame : forall s key v s' b, set_value s key v = Ok (s', b) -> exists ws,
  (forall k, ~ below key k -> valof s'.(p_map) k = option_map (upds ws) (valof s.(p_map) k)) /\
  (forall w, In w ws -> exists c, valof s.(p_map) key = Some c /\ In (fst w) (ids (subcells c))) /\
  (Forall (fun w => leaf (snd w)) ws \/ exists w, ws = [w]).
Proof.
  intros s key v s' b H. apply set_value_cases in H.
  assert (NIL : forall o : option cell, option_map (upds []) o = o) by (intros [c|]; reflexivity).
  assert (KEEP : forall ks k, get_all_subkeys s.(p_map) key = Ok ks -> ~ below key k -> valof (removed ks s.(p_map)) k = valof s.(p_map) k).
  { intros ks k KS NB. unfold valof. rewrite removed_keep; auto. intros I. destruct (get_all_subkeys_ok (p_map s) key) as (l & E3 & F). rewrite KS in E3. inversion E3; subst.
    rewrite Forall_forall in F. auto. }
  destruct H as [V|c ws V SS R|c ks n V SS KS C|c ks n nv m s1 V SS KS C L E R].
  - exists []. split; [intros; rewrite NIL; auto|]. split; [intros w []|left; constructor].
  - exists ws. pose proof (replace_writes _ _ _ _ R) as F. rewrite Forall_forall in F. split; [intros k _; rewrite map_writes; destruct (valof (p_map s) k); reflexivity|]. split.
    + intros w I. exists c. split; auto. destruct c. apply F. exact I.
    + left. apply Forall_forall. intros w I. apply F. exact I.
  - exists []. split; [intros; rewrite NIL; cbn [p_map set_next set_map]; auto|]. split; [intros w []|left; constructor].
  - exists [(c_id c, nv)]. split; [|split; [intros w [<-|[]]; exists c; split; auto; left; auto|right; eauto]].
    intros k NB. cbn [p_map set_map set_next].
    assert (X : valof m k = valof s1.(p_map) k).
    { destruct (str_eqb k key) eqn:Q; [apply str_eqb_eq in Q; subst k; eapply rebuild_key; eauto|]. apply str_eqb_neq in Q. unfold valof. erewrite rebuild_only by eauto. reflexivity. }
    rewrite X. subst s1. cbn [write p_map set_root set_map set_next]. rewrite valof_upd, KEEP by auto. destruct (valof (p_map s) k); reflexivity.
Qed.

(** ** A cell that is not strictly inside a written one stays *)
Definition spared (x id : N) (d : cell) : Prop := forall e, In e (subcells d) -> c_id e = id -> ~ In x (ids (tcells e.(c_val))).
Lemma kid_in : forall i t e c, In c (kids t) -> In e (subcells c) -> In e (subcells (Cell i t)).
Proof. intros i t e c I J. right. cbn [c_val]. rewrite tcells_kids. apply in_flat_subcells. eauto. Qed.
Lemma spared_kid : forall x id i t c, spared x id (Cell i t) -> In c (kids t) -> spared x id c.
Proof. intros x id i t c S I e J. apply S. eapply kid_in; eauto. Qed.
Lemma spare_upd : forall id nv d x, In x (ids (subcells d)) -> spared x id d -> In x (ids (subcells (upd_c id nv d))).
Proof.
  intros id nv d. induction d as [i t IH] using cell_ind'; intros x I S. rewrite upd_c_eq. rewrite ids_subcells in *. cbn [c_id c_val] in *.
  destruct I as [->|I]; [left; auto|]. destruct (i =? id) eqn:Q.
  - exfalso. apply (S (Cell i t)); [left; auto|cbn [c_id]; lia|exact I].
  - right. rewrite tcells_kids in *. rewrite upd_kids. apply in_ids_flat in I as (c & I1 & I2). apply in_ids_flat. exists (upd_c id nv c). split; [apply in_map; auto|].
    rewrite Forall_forall in IH. apply IH; auto. eapply spared_kid; eauto.
Qed.
Lemma sub_upd : forall id nv d e, leaf nv -> In e (subcells (upd_c id nv d)) -> exists e0, In e0 (subcells d) /\ c_id e = c_id e0 /\ forall x, In x (ids (tcells e.(c_val))) -> In x (ids (tcells e0.(c_val))).
Proof.
  intros id nv d e L. induction d as [i t IH] using cell_ind'. intros I. assert (E := upd_ids id nv (Cell i t)). rewrite upd_c_eq in I, E. cbn [c_id c_val] in I, E.
  assert (NV : tcells nv = []) by (destruct nv; try contradiction; reflexivity).
  destruct I as [<-|I].
  - exists (Cell i t). split; [left; auto|]. split; auto. cbn [c_val]. intros x X. destruct (i =? id) eqn:Q; [rewrite NV in X; destruct X|].
    rewrite tcells_kids, upd_kids in X. apply in_ids_flat in X as (c1 & I1 & I2). apply in_map_iff in I1 as (c0 & <- & I1). apply upd_ids in I2 as [I2|[_ I2]]; [|rewrite NV in I2; destruct I2].
    rewrite tcells_kids. apply in_ids_flat. eauto.
  - cbn [c_val] in I. destruct (i =? id); [rewrite NV in I; destruct I|]. rewrite tcells_kids, upd_kids in I. apply in_flat_subcells in I as (c1 & I1 & I2). apply in_map_iff in I1 as (c0 & <- & I1).
    rewrite Forall_forall in IH. destruct (IH _ I1 I2) as (e0 & J & Q & X). exists e0. split; auto. eapply kid_in; eauto.
Qed.
Lemma spare_upds : forall ws d x, Forall (fun w => leaf (snd w)) ws \/ (exists w, ws = [w]) -> In x (ids (subcells d)) -> (forall w, In w ws -> spared x (fst w) d) -> In x (ids (subcells (upds ws d))).
Proof.
  intros ws d x [F|[w ->]].
  - revert d. unfold upds. induction ws as [|[id nv] ws IH]; intros d I S; auto. inversion F; subst. cbn [fold_left fst snd] in *. apply IH; auto.
    + apply spare_upd; auto. apply (S (id, nv)). left; auto.
    + intros w W e J Q X. apply sub_upd in J as (e0 & J & E & Y); auto. apply (S w (or_intror W) e0 J); [congruence|auto].
  - intros I S. unfold upds. cbn [fold_left]. apply spare_upd; auto. apply S. left; auto.
Qed.

(** ** Names that lead into one another *)
Definition linked (s : pst) (k key : str) : Prop := exists d c, valof s.(p_map) k = Some d /\ valof s.(p_map) key = Some c /\ In (c_id c) (ids (subcells d)).
Lemma linked_loc : forall ovf s k key d c, reach ovf s -> valof s.(p_map) k = Some d -> valof s.(p_map) key = Some c -> In (c_id c) (ids (subcells d)) -> loc k d key c.
Proof.
  intros ovf s k key d c R V1 V2 I. pose proof (reach_ok _ _ R) as (K & _ & _). destruct (reach_wf _ _ R) as (h & W).
  destruct (K _ _ _ _ V1 V2) as [L|L]; auto; [exists (c_id c); split; auto; left; auto|]. apply loc_self in L as [-> ->]; auto; [constructor|eapply wf_cells_nodup; eauto].
Qed.
Lemma keep_link : forall ovf s k key k2 v s1 b, reach ovf s -> linked s k key -> set_value s k2 v = Ok (s1, b) -> ~ below k2 key -> linked s1 k key.
Proof.
  intros ovf s k key k2 v s1 b R (d & c & V1 & V2 & I) H NB. pose proof (linked_loc _ _ _ _ _ _ R V1 V2 I) as L. pose proof (reach_ok _ _ R) as (K & _ & _). destruct (reach_wf _ _ R) as (h & W).
  assert (NB2 : ~ below k2 k) by (intros X; apply NB; destruct (loc_covers _ _ _ _ L) as [<-|Y]; auto; eapply SetFacts.below_trans; eauto).
  destruct (set_frame _ _ _ _ _ H) as (ws & ST & IN & LF). exists (upds ws d), (upds ws c).
  split; [rewrite ST, V1 by auto; auto|]. split; [rewrite ST, V2 by auto; auto|]. rewrite upds_id. apply spare_upds; auto.
  intros w WI e J Q X. destruct (IN _ WI) as (c2 & V3 & J3). apply in_ids_cell in J3 as (e2 & J3 & Q2).
  pose proof (co_good _ _ (wf_co _ _ W) _ _ V1) as G1. pose proof (co_good _ _ (wf_co _ _ W) _ _ V3) as G3. rewrite Forall_forall in G1, G3.
  destruct (G1 _ J) as [_ E1]. destruct (G3 _ J3) as [_ E3]. rewrite Q, <- Q2, E3 in E1. rewrite <- E1 in X.
  assert (IC : In (c_id c) (ids (tcells c2.(c_val)))).
  { destruct c2 as [i t]. destruct J3 as [<-|J3]; [exact X|]. cbn [c_val] in *. rewrite tcells_kids in J3 |- *. apply in_flat_subcells in J3 as (c3 & J4 & J5).
    apply in_ids_flat. exists c3. split; auto. clear - J5 X. revert e2 J5 X. induction c3 as [i t IH] using cell_ind'; intros e2 J X.
    rewrite ids_subcells. cbn [c_id c_val]. right. destruct J as [<-|J]; [exact X|]. cbn [c_val] in J. rewrite tcells_kids in J |- *. apply in_flat_subcells in J as (c4 & J1 & J2).
    apply in_ids_flat. exists c4. split; auto. rewrite Forall_forall in IH. eapply IH; eauto. }
  assert (SELF : forall c0, NoDup (ids (subcells c0)) -> ~ In (c_id c0) (ids (tcells (c_val c0)))) by (intros c0 N Y; rewrite ids_subcells in N; inversion N; auto).
  assert (IC2 : In (c_id c) (ids (subcells c2))) by (rewrite ids_subcells; right; exact IC).
  pose proof (linked_loc _ _ _ _ _ _ R V3 V2 IC2) as Z. destruct (loc_covers _ _ _ _ Z) as [Y|Y]; [|contradiction].
  subst k2. rewrite V2 in V3. injection V3 as <-. revert IC. apply SELF. eapply wf_cells_nodup; eauto.
Qed.
Lemma link_shows : forall ovf s key v s' k V w, reach ovf s -> linked s k key -> set_value s key v = Ok (s', true) -> get_value s k = Ok (Some V) -> get_value s' key = Ok (Some w) ->
  exists x V', get_value s key = Ok (Some x) /\ put_name k V key x w V' /\ get_value s' k = Ok (Some V').
Proof.
  intros ovf s key v s' k V w R (d & c & V1 & V2 & I) H GV GW. pose proof (linked_loc _ _ _ _ _ _ R V1 V2 I) as L. destruct (reach_wf _ _ R) as (h & W).
  destruct (set_frame _ _ _ _ _ H) as (ws & ST & IN & _). apply get_value_cell in GV as (d0 & VD & TD). rewrite V1 in VD. injection VD as <-. apply get_value_cell in GW as (c' & VC' & TC').
  rewrite ST, V2 in VC' by apply not_self. injection VC' as <-.
  assert (NB : ~ below key k) by (intros X; eapply not_both; [exact X|eapply loc_covers; eauto]).
  assert (F : Forall (fun w => In (fst w) (ids (subcells c))) ws) by (apply Forall_forall; intros u U; destruct (IN _ U) as (c2 & E & J); congruence).
  destruct (loc_put _ _ _ _ L ws V w (wf_cells_nodup _ _ _ _ W V1) F TD TC') as (x & V' & X & P & T).
  exists x, V'. split; [apply get_value_cell; eauto|]. split; auto. apply get_value_cell. exists (upds ws d). rewrite ST, V1 by auto. auto.
Qed.

(** ** Accepted documents *)
Lemma doc_cell : forall ovf i s r x u p w, parse (new_parser ovf) i = Ok (s, r) -> plain_tables s.(p_root) -> all_taken s.(p_errors) -> s.(p_leftover) = [] -> apart s.(p_root) ->
  In x (keyed [] s.(p_root)) -> denotes (snd x).(kv_val).(c_val) u -> at_path u p = Some w ->
  exists y, NestFacts.tat (snd x).(kv_val) p = Some y /\ to_val y.(c_val) = Ok w /\ valof s.(p_map) (line_name x ++ path_text p) = Some y.
Proof.
  intros ovf i s r x u p w H PT C LO AP I D A. pose proof (KidsFacts.kids_good _ _ _ _ H PT C LO AP) as G. pose proof (ReachFacts.denotes_val _ _ D) as TV.
  pose proof (NestFacts.tat_at p _ _ TV) as Y. rewrite A in Y. destruct Y as (y & Y & TY). exists y. split; auto. split; auto.
  destruct (KidsFacts.g_held _ _ _ G x I) as [KN AH]. pose proof (KN _ _ Y) as NP. pose proof (AH _ NP) as HY. unfold KidsFacts.look in HY. rewrite Y in HY.
  pose proof (KidsFacts.line_names _ _ _ _ G I) as LN. pose proof (KidsFacts.line_named _ _ _ _ G I) as LNM.
  assert (NB : KidsFacts.named (KidsFacts.lpl x ++ p)) by (apply KidsFacts.named_app; auto).
  assert (E : KidsFacts.tx (KidsFacts.lpl x ++ p) = line_name x ++ path_text p).
  { rewrite KidsFacts.tx_path; auto; [|unfold KidsFacts.lpl, line_path; rewrite map_app; destruct (map PKey (fst x)); discriminate]. f_equal. apply KidsFacts.line_key. exact LN. }
  rewrite E in HY. unfold valof. rewrite HY. reflexivity.
Qed.
Lemma tat_app : forall p q c y z, NestFacts.tat c p = Some y -> NestFacts.tat c (p ++ q) = Some z -> NestFacts.tat y q = Some z.
Proof.
  induction p as [|[i|k] p IH]; intros q c y z A B; cbn [app NestFacts.tat] in *; [congruence| |].
  - destruct (c_val c); try discriminate. destruct (nth_error _ _); [|discriminate]. eauto.
  - destruct (c_val c); try discriminate. match goal with H : match ?o with _ => _ end = Some y |- _ => destruct o; [|discriminate] end. eauto.
Qed.
Lemma doc_linked : forall ovf i s r x u p q w z, parse (new_parser ovf) i = Ok (s, r) -> plain_tables s.(p_root) -> all_taken s.(p_errors) -> s.(p_leftover) = [] -> apart s.(p_root) ->
  In x (keyed [] s.(p_root)) -> denotes (snd x).(kv_val).(c_val) u -> at_path u p = Some w -> at_path u (p ++ q) = Some z ->
  linked s (line_name x ++ path_text p) (line_name x ++ path_text (p ++ q)).
Proof.
  intros ovf i s r x u p q w z H PT C LO AP I D A B. destruct (doc_cell _ _ _ _ _ _ _ _ H PT C LO AP I D A) as (y & Y & _ & V1). destruct (doc_cell _ _ _ _ _ _ _ _ H PT C LO AP I D B) as (y2 & Y2 & _ & V2).
  exists y, y2. split; auto. split; auto. apply in_map. eapply LayFacts.tat_in. eapply tat_app; eauto.
Qed.
Lemma links_stay : forall ovf us s s' k key, reach ovf s -> linked s k key -> StaySpec.updates s us s' -> Forall (fun u => ~ below (fst u) key) us -> linked s' k key /\ reach ovf s'.
Proof.
  intros ovf us s s' k key R L U. induction U as [s|s k0 v s1 b us s2 H U IH]; intros F; auto. inversion F; subst. apply IH; auto; [eapply R_set; eauto|]. eapply keep_link; eauto.
Qed.
Section Shows.
Variables (ovf : bool) (i : str) (s0 : pst) (r : parse_result) (x : list str * keyval) (u w0 z0 : value) (p q : list pstep) (us : list (str * value)) (s : pst).
Hypothesis P : parse (new_parser ovf) i = Ok (s0, r).
Hypothesis PT : plain_tables s0.(p_root).
Hypothesis AT : all_taken s0.(p_errors).
Hypothesis LO : s0.(p_leftover) = [].
Hypothesis AP : apart s0.(p_root).
Hypothesis I : In x (keyed [] s0.(p_root)).
Hypothesis D : denotes (snd x).(kv_val).(c_val) u.
Hypothesis A : at_path u p = Some w0.
Hypothesis B : at_path u (p ++ q) = Some z0.
Let k : str := line_name x ++ path_text p.
Let key : str := line_name x ++ path_text (p ++ q).
Hypothesis U : StaySpec.updates s0 us s.
Hypothesis F : Forall (fun y => ~ below (fst y) key) us.
Lemma doc_links : linked s k key /\ reach ovf s.
Proof.
  eapply links_stay; eauto; [eapply R_parse; [apply R_new|exact P]|]. eapply doc_linked; eauto.
Qed.
Lemma doc_agree : forall V, get_value s k = Ok (Some V) -> exists y, get_value s key = Ok (Some y) /\ at_name k V key y.
Proof.
  intros V G. destruct doc_links as [(d & c & V1 & V2 & J) R]. pose proof (linked_loc _ _ _ _ _ _ R V1 V2 J) as L. apply get_value_cell in G as (d0 & E & T). rewrite V1 in E. injection E as <-.
  destruct (loc_at _ _ _ _ L _ T) as (y & Y & N). exists y. split; auto. apply get_value_cell. eauto.
Qed.
Lemma doc_shows : forall V v s' w, get_value s k = Ok (Some V) -> set_value s key v = Ok (s', true) -> get_value s' key = Ok (Some w) ->
  exists y V', get_value s key = Ok (Some y) /\ put_name k V key y w V' /\ get_value s' k = Ok (Some V').
Proof. intros V v s' w G H W. destruct doc_links as [L R]. eapply link_shows; eauto. Qed.
End Shows.
