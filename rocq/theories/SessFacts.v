(** Editing sessions. *)
From Coq Require Import Lia ZifyBool ZifyNat ZifyN.
From Verif Require Import Str Regex Types Ast State Nom Keys Grammar Api Facts Spec.
From Verif Require Import RegexFacts NomFacts TypesFacts DateFacts NumFacts StringFacts ScalarFacts.
From Verif Require Import LineFacts FlatFacts RoundTrip ParseFacts WalkFacts IdFacts WriteFacts SetFacts ApiSpec ApiFacts UpdateFacts.
From Verif Require Import DocSpec PathFacts NestFacts SectFacts LookFacts RereadFacts DotSpec DotFacts TreeSpec SessSpec LayFacts.

(** two positions of a list *)
Lemma two_splits : forall A (l1 : list A) x l2 l1' x' l2', l1 ++ x :: l2 = l1' ++ x' :: l2' ->
  (l1 = l1' /\ x = x' /\ l2 = l2') \/ (exists m, l1' = l1 ++ x :: m /\ l2 = m ++ x' :: l2') \/
  (exists m, l1 = l1' ++ x' :: m /\ l2' = m ++ x :: l2).
Proof.
  induction l1 as [|a l1 IH]; intros x l2 l1' x' l2' E; destruct l1' as [|b l1']; cbn [app] in E.
  - injection E as -> ->. auto.
  - injection E as -> ->. right. left. exists l1'. auto.
  - injection E as -> <-. right. right. exists l1. auto.
  - injection E as -> E. destruct (IH _ _ _ _ _ E) as [(-> & -> & ->)|[(m & -> & ->)|(m & -> & ->)]].
    + auto.
    + right. left. exists m. auto.
    + right. right. exists m. auto.
Qed.
Lemma forall2_split : forall A B (R : A -> B -> Prop) a1 x a2 b, Forall2 R (a1 ++ x :: a2) b ->
  exists b1 y b2, b = b1 ++ y :: b2 /\ length b1 = length a1 /\ Forall2 R a1 b1 /\ R x y /\ Forall2 R a2 b2.
Proof.
  intros A B R a1 x a2 b F. apply Forall2_app_inv_l in F as (b1 & b' & F1 & F2 & ->). inversion F2 as [|? y ? b2 Q F3]; subst.
  exists b1, y, b2. split; auto. split; auto. clear - F1. induction F1; cbn [length]; auto.
Qed.
Lemma same_split : forall A (b1 : list A) y b2 b1' y' b2', b1 ++ y :: b2 = b1' ++ y' :: b2' -> length b1 = length b1' ->
  b1 = b1' /\ y = y' /\ b2 = b2'.
Proof.
  intros A b1 y b2 b1' y' b2' E L. apply two_splits in E as [E|[(m & -> & _)|(m & -> & _)]]; auto;
    rewrite app_length in L; cbn [length] in L; lia.
Qed.

Lemma NoDup_app_remove_parts : forall A (la le lb : list A) x, NoDup (la ++ le ++ lb) -> In x le -> ~ In x la /\ ~ In x lb.
Proof.
  intros A la le lb x ND I. induction la as [|a la IH].
  - split; [intros []|]. intros J. cbn [app] in ND. induction le as [|y le IH]; [destruct I|]. inversion ND as [|? ? N1 N2]; subst.
    destruct I as [->|I]; [|auto]. apply N1. apply in_or_app; auto.
  - cbn [app] in ND. inversion ND as [|? ? N1 N2]; subst. destruct (IH N2) as [P Q]. split; auto.
    intros [->|J]; auto. apply N1. apply in_or_app. right. apply in_or_app. auto.
Qed.
Lemma ids_around : forall a e b x, NoDup (ids (toml_cells (a ++ e :: b))) -> In x (ids (ex_cells e.(ne_expr))) ->
  ~ In x (ids (toml_cells a)) /\ ~ In x (ids (toml_cells b)).
Proof.
  intros a e b x ND I. rewrite toml_cells_app in ND. change (toml_cells (e :: b)) with (ex_cells (ne_expr e) ++ toml_cells b) in ND.
  rewrite !ids_app in ND. revert ND I. generalize (ids (toml_cells a)) (ids (ex_cells (ne_expr e))) (ids (toml_cells b)).
  intros la le lb ND I. eapply NoDup_app_remove_parts; eauto.
Qed.

(** ** Values of another shape *)
Lemma array_spells : forall l, Forall (fun x => scalar x (spelling x)) l -> uniform l ->
  spells (VArray l) (lit "[" ++ comma_list (map spelling l) ++ lit "]").
Proof.
  intros l SC UN. change (spells (VArray l) (lit "[" ++ [] ++ comma_list (map spelling l) ++ lit "]")).
  apply Sp_array; auto; [apply G_ws, BL_nil|]. clear - SC. induction l as [|x l IH]; [apply El_nil|]. inversion SC as [|? ? S1 S2]; subst.
  destruct l as [|y l].
  - cbn [map comma_list]. rewrite <- (app_nil_r (spelling x)). apply El_last; [apply Sp_scalar; auto|apply G_ws, BL_nil].
  - change (comma_list (map spelling (x :: y :: l))) with (spelling x ++ [] ++ lit "," ++ [32] ++ comma_list (map spelling (y :: l))).
    apply El_cons; [apply Sp_scalar; auto|constructor|apply G_ws, BL_char; [auto|apply BL_nil]|auto].
Qed.
Lemma table_spells : forall l, l <> [] -> Forall (fun x => key_name (fst x) /\ scalar (snd x) (spelling (snd x))) l -> NoDup (map fst l) ->
  spells (VInlineTable l) (lit "{ " ++ comma_list (map (fun kv => fst kv ++ lit " = " ++ spelling (snd kv)) l) ++ lit " }").
Proof.
  intros l NE SC ND. set (f := fun kv : str * value => fst kv ++ lit " = " ++ spelling (snd kv)).
  change (spells (VInlineTable l) (lit "{ " ++ comma_list (map f l) ++ lit " }")).
  replace (lit "{ " ++ comma_list (map f l) ++ lit " }") with (lit "{" ++ [32] ++ (comma_list (map f l) ++ [32]) ++ lit "}")
    by (rewrite <- app_assoc; reflexivity).
  apply Sp_inline; auto; [apply Forall_cons; [auto|apply Forall_nil]|]. clear - SC NE. induction l as [|[x vx] l IH]; [congruence|].
  inversion SC as [|? ? [S0 S1] S2]; subst. cbn [fst snd] in *.
  destruct l as [|y l].
  - change (comma_list (map f [(x, vx)]) ++ [32]) with ((x ++ [32] ++ lit "=" ++ [32] ++ spelling vx) ++ [32]).
    rewrite <- !app_assoc. apply Fl_last; auto; try (apply Forall_cons; [auto|apply Forall_nil]); [apply Sp_scalar; auto|].
    apply G_ws, BL_char; [auto|apply BL_nil].
  - change (comma_list (map f ((x, vx) :: y :: l))) with
      ((x ++ [32] ++ lit "=" ++ [32] ++ spelling vx) ++ [] ++ lit "," ++ [32] ++ comma_list (map f (y :: l))).
    rewrite <- !app_assoc. apply Fl_cons; auto; try (apply Forall_cons; [auto|apply Forall_nil]); try apply Forall_nil; [apply Sp_scalar; auto| |].
    + apply G_ws, BL_char; [auto|apply BL_nil].
    + apply IH; auto. discriminate.
Qed.
Lemma scalars_map : forall l ts, Forall2 scalar l ts -> ts = map spelling l /\ Forall (fun x => scalar x (spelling x)) l.
Proof.
  intros l ts F. induction F as [|x t l ts X F [-> IH]]; [split; [reflexivity|constructor]|]. destruct (scalar_spelling _ _ X) as [-> _].
  split; [reflexivity|]. constructor; auto.
Qed.
Lemma fields_map : forall (l : list (str * value)) ts,
  Forall2 (fun x t => key_name (fst x) /\ exists t0, scalar (snd x) t0 /\ t = fst x ++ lit " = " ++ t0) l ts ->
  ts = map (fun kv => fst kv ++ lit " = " ++ spelling (snd kv)) l /\ Forall (fun x => key_name (fst x) /\ scalar (snd x) (spelling (snd x))) l.
Proof.
  intros l ts F. induction F as [|x t l ts (K & t0 & X & ->) F [-> IH]]; [split; [reflexivity|constructor]|]. destruct (scalar_spelling _ _ X) as [-> _].
  split; [reflexivity|]. constructor; auto.
Qed.
Lemma remakes_spells : forall v v' t', remakes v v' t' -> spells v' t'.
Proof.
  intros v v' t' [l ts S U _|l ts N S U _].
  - apply scalars_map in S as [-> S]. apply array_spells; auto.
  - apply fields_map in S as [-> S]. apply table_spells; auto.
Qed.
Lemma scalar_filled : forall v, scalar_value v -> DocSpec.filled v.
Proof. intros [] S; try destruct S; exact I. Qed.
Lemma remakes_filled : forall v v' t', remakes v v' t' -> DocSpec.filled v'.
Proof.
  intros v v' t' [l ts S U _|l ts N S U _].
  - cbn [DocSpec.filled]. clear - S. induction S as [|x t l ts X S IH]; auto. split; auto. apply scalar_filled. apply (scalar_spelling _ _ X).
  - cbn [DocSpec.filled]. split; auto. clear - S. induction S as [|x t l ts (_ & t0 & X & _) S IH]; auto. split; auto. apply scalar_filled. apply (scalar_spelling _ _ X).
Qed.

(** what set_value does *)
Lemma remake_set : forall h s key cl v v' t', wf h s -> key <> root_key -> valof s.(p_map) key = Some cl -> to_val cl.(c_val) = Ok v -> remakes v v' t' ->
  exists s' nv, set_value s key v' = Ok (s', true) /\ s'.(p_root) = upd_toml cl.(c_id) nv s.(p_root) /\
    valof s'.(p_map) key = Some (Cell cl.(c_id) nv) /\
    (forall k', k' <> key -> ~ below key k' -> valof s'.(p_map) k' = option_map (upd_c cl.(c_id) nv) (valof s.(p_map) k')) /\
    (forall x, x <> key -> ~ below key x -> get_children s' x = get_children s x) /\
    to_val nv = Ok v' /\ tsrc nv = t' /\ neat nv.
Proof.
  intros h s key c v v' t' W NR V T CH.
  destruct (get_all_subkeys_ok (p_map s) key) as (ks & K & B).
  destruct (valof_hget _ _ _ V) as (hv & Gk & HV).
  assert (CHI : forall m n nv, let s1 := write (set_next n (set_map (removed ks s.(p_map)) s)) (c.(c_id), nv) in
    (forall k, k <> key -> ~ below key k -> hget k m = hget k (p_map s1)) ->
    let s' := set_map m (set_next (n + 1) s1) in
    (forall k', k' <> key -> ~ below key k' -> valof s'.(p_map) k' = option_map (upd_c c.(c_id) nv) (valof s.(p_map) k')) /\
    (forall x, x <> key -> ~ below key x -> get_children s' x = get_children s x)).
  { intros m n nv s1 R s'. split.
    - intros k N Bk. unfold s', s1 in *. cbn [p_map set_map set_next write set_root] in *. unfold valof. rewrite R by auto.
      rewrite hget_upd, (re_keep s key ks K) by auto. destruct (hget k (p_map s)) as [[o ?]|]; auto.
    - intros k N Bk. unfold get_children, s'. cbn [p_map set_map set_next].
      assert (X : (match k with [] => root_key | _ => k end) <> key /\ ~ below key (match k with [] => root_key | _ => k end)).
      { destruct k; [split; [congruence|apply not_below_root]|auto]. }
      rewrite R by tauto. unfold s1. cbn [write p_map set_root set_map set_next]. rewrite hget_upd, (re_keep s key ks K) by tauto.
      destruct (hget (match k with [] => root_key | _ => k end) (p_map s)) as [[]|]; auto. }
  destruct CH as [l ts SC UN NS|l ts NE SC ND NS].
  - apply scalars_map in SC as [-> SC]. assert (FL : flat l).
    { intros x I. rewrite Forall_forall in SC. pose proof (SC x I) as X. split; [apply (scalar_spelling _ _ X)|eapply scalar_validate; eauto]. }
    pose proof (shape_differs _ _ _ T NS) as SS. pose proof (convert_array l s.(p_next) FL) as C.
    set (n := p_next s + nlen l) in *. set (nv := flat_array l (p_next s)) in *.
    set (s1 := write (set_next n (set_map (removed ks s.(p_map)) s)) (c.(c_id), nv)).
    pose proof (re_key s key c ks nv n V K hv Gk) as K1. fold s1 in K1.
    set (m1 := hput key (HashValue (Some (Cell c.(c_id) nv)) (Count (nlen (conv_avs l (p_next s))))) s1.(p_map)).
    destruct (rebuild_elems l (p_next s) key 0 m1) as (m & R & O & _).
    assert (RV : rebuild_vector nv n key true s1.(p_map) = Ok m).
    { unfold nv, flat_array. cbn [rebuild_vector]. rewrite K1. cbn [hv_value]. exact R. }
    exists (set_map m (set_next (n + 1) s1)), nv.
    split; [eapply set_restructure; eauto; intros []|]. split; [reflexivity|]. split.
    { cbn [p_map set_map set_next]. unfold valof. rewrite O.
      - unfold m1. rewrite hget_hput_same. auto.
      - intros j _ Q; symmetry in Q; pose proof (below_index key j) as X; rewrite Q in X; apply below_neq in X; auto. }
    destruct (CHI m n nv) as [A1 A2].
    { intros k Nk Bk. rewrite O by (intros j _ ->; apply Bk, below_index). apply hget_hput_other. auto. }
    split; [exact A1|]. split; [exact A2|]. split; [apply to_val_array; auto|]. split; [apply src_array; auto|]. apply neat_array. intros x I. apply FL; auto.
  - apply fields_map in SC as [-> SC]. assert (FL : flat2 l).
    { intros x I. rewrite Forall_forall in SC. destruct (SC x I) as [_ X]. split; [apply (scalar_spelling _ _ X)|eapply scalar_validate; eauto]. }
    pose proof (shape_differs _ _ _ T NS) as SS. pose proof (convert_table l s.(p_next) FL) as C.
    set (n := p_next s + nlen l) in *. set (nv := flat_table l (p_next s)) in *.
    set (s1 := write (set_next n (set_map (removed ks s.(p_map)) s)) (c.(c_id), nv)).
    pose proof (re_key s key c ks nv n V K hv Gk) as K1. fold s1 in K1.
    set (sub := match hv.(hv_subkeys) with
                | Keys l1 => Keys (fold_left (fun l (tk : table_keyval) => fst (vinsert l tk.(tk_kv).(kv_key))) (conv_tks l (p_next s)) l1)
                | Count n => Count n end).
    set (m1 := hput key (HashValue (Some (Cell c.(c_id) nv)) sub) s1.(p_map)).
    destruct (rebuild_entries l (p_next s) key 0 m1) as (m & R & O & _).
    assert (RV : rebuild_vector nv n key true s1.(p_map) = Ok m).
    { unfold nv, flat_table. cbn [rebuild_vector]. rewrite K1. cbn [hv_value hv_subkeys]. exact R. }
    exists (set_map m (set_next (n + 1) s1)), nv.
    split; [eapply set_restructure; eauto; intros []|]. split; [reflexivity|]. split.
    { cbn [p_map set_map set_next]. unfold valof. rewrite O.
      - unfold m1. rewrite hget_hput_same. auto.
      - intros j _ Q; pose proof (below_dot key j) as X; rewrite <- Q in X; apply below_neq in X; auto. }
    destruct (CHI m n nv) as [A1 A2].
    { intros k Nk Bk. rewrite O by (intros j _ ->; apply Bk, below_dot). apply hget_hput_other. auto. }
    split; [exact A1|]. split; [exact A2|]. split; [apply to_val_table; auto|]. split; [apply src_table; auto|]. apply neat_table. intros x I. apply FL; auto.
Qed.

(** ** Writes *)
Definition updt (d : toml) (w : N * tval) : toml := upd_toml (fst w) (snd w) d.
Lemma writes_root : forall ws s, (fold_left write ws s).(p_root) = fold_left updt ws s.(p_root).
Proof. induction ws as [|[i nv] ws IH]; intros s; [reflexivity|]. cbn [fold_left]. rewrite IH. reflexivity. Qed.
Lemma root_fold : forall F a b pre post ws c, toml_place F a b pre post ->
  Forall (fun w => ~ In (fst w) a /\ ~ In (fst w) b) ws -> fold_left updt ws (F c) = F (upds ws c).
Proof.
  intros F a b pre post ws c [_ _ U _ _]. revert c. unfold upds. induction ws as [|[id nv] ws IH]; intros c N; auto.
  inversion N as [|x y [N1 N2] N3]; subst. cbn [fold_left fst snd] in *. unfold updt at 2. cbn [fst snd]. rewrite U by auto. apply IH; auto.
Qed.
Lemma upds_absent : forall ws c, Forall (fun w => ~ In (fst w) (ids (subcells c))) ws -> upds ws c = c.
Proof.
  unfold upds. intros ws c F. induction F as [|w ws N F IH]; auto. cbn [fold_left]. rewrite upd_c_absent; auto.
Qed.
Lemma map_writes' : forall ws s k, valof (fold_left write ws s).(p_map) k = option_map (upds ws) (valof s.(p_map) k).
Proof. intros. rewrite map_writes. destruct (valof (p_map s) k); auto. Qed.

(** an update inside a value *)
Lemma path_set : forall h s key cl v t p u x y t', wf h s -> valof s.(p_map) key = Some cl -> to_val cl.(c_val) = Ok v ->
  tsrc cl.(c_val) = t -> neat cl.(c_val) -> at_path v p = Some x -> respells v t (put_at p u v) t' ->
  valof s.(p_map) (key ++ path_text p) = Some y -> tat cl p = Some y ->
  exists ws, set_value s (key ++ path_text p) u = Ok (fold_left write ws s, true) /\
    upds ws cl = Cell cl.(c_id) (fill cl.(c_val) (put_at p u v)) /\
    Forall (fun w => In (fst w) (ids (subcells cl))) ws /\
    to_val (fill cl.(c_val) (put_at p u v)) = Ok (put_at p u v) /\ tsrc (fill cl.(c_val) (put_at p u v)) = t' /\
    neat (fill cl.(c_val) (put_at p u v)).
Proof.
  intros h s key cl v t p u x y t' W V T S N A R VY TY.
  pose proof (tat_at p cl v T) as Q. rewrite A in Q. destruct Q as (y' & Q & TX). rewrite TY in Q. injection Q as <-.
  pose proof (respells_shape _ _ _ _ R) as SH. pose proof (shape_at p _ _ SH) as SX. rewrite A, (at_put _ u _ _ A) in SX.
  pose proof (respells_valid _ _ _ _ R) as AV.
  assert (AU : all_valid u). { intros z I. apply AV. eapply leaves_at; [apply (at_put _ u _ _ A)|auto]. }
  destruct (fill_ok _ _ _ y.(c_id) TX SX AU) as (ws & F). exists ws. split; [eapply set_same; eauto|].
  destruct (tat_place p cl y v TY T) as (G & a & b & pre & post & PL & GY & GU).
  pose proof (co_dup _ _ (wf_co _ _ W) _ _ V) as ND. rewrite <- GY, (pl_ids _ _ _ _ _ _ _ _ _ PL) in ND.
  pose proof (replace_writes _ _ _ _ (fi_ws _ _ _ _ _ F)) as RW.
  assert (CY : Cell y.(c_id) y.(c_val) = y) by (destruct y; reflexivity). rewrite CY in RW.
  assert (OUT : Forall (fun w => ~ In (fst w) a /\ ~ In (fst w) b) ws).
  { eapply Forall_impl; [|exact RW]. cbv beta. intros w [_ I]. eapply nodup_around; eauto. }
  split.
  { rewrite <- GY at 1. rewrite (place_upds _ _ _ _ _ _ _ PL OUT). rewrite <- CY at 1. rewrite (fi_upd _ _ _ _ _ F); [apply GU|].
    rewrite CY. apply nodup_drop in ND. clear - ND. revert ND. generalize (ids (subcells y)). intros l ND.
    induction l as [|z l IH]; [constructor|]. cbn [app] in ND. inversion ND as [|? ? N1 N2]; subst. constructor; auto. intros I. apply N1. apply in_or_app; auto. }
  split.
  { eapply Forall_impl; [|exact RW]. cbv beta. intros w [_ I]. rewrite <- GY, (pl_ids _ _ _ _ _ _ _ _ _ PL).
    apply in_or_app. right. apply in_or_app. auto. }
  destruct (fill_ok _ _ _ cl.(c_id) T SH AV) as (ws2 & F2). split; [apply (fi_val _ _ _ _ _ F2)|].
  destruct (respell_fill _ _ _ _ R cl.(c_val) [] [] N T) as (_ & B & C); [rewrite !app_nil_r; auto|]. auto.
Qed.

Lemma subcells_trans : forall c c' c'', In c' (subcells c) -> In c'' (subcells c') -> In c'' (subcells c).
Proof.
  intros c. induction c as [i t IH] using cell_ind'. intros c' c'' I J.
  destruct I as [<-|I]; auto. cbn [c_val] in I. rewrite tcells_kids in I. apply in_flat_map in I as (k & I & K).
  rewrite Forall_forall in IH. right. cbn [c_val]. rewrite tcells_kids. apply in_flat_map. exists k. split; auto. eapply IH; eauto.
Qed.

Lemma sub_to_val : forall c c' v, to_val c.(c_val) = Ok v -> In c' (subcells c) -> exists v', to_val c'.(c_val) = Ok v'.
Proof.
  intros c. induction c as [i t IH] using cell_ind'. intros c' v T I. destruct I as [<-|I]; [eauto|]. cbn [c_val] in *.
  rewrite tcells_kids in I. apply in_flat_map in I as (k & I & J). rewrite Forall_forall in IH.
  assert (X : exists vk, to_val k.(c_val) = Ok vk); [|destruct X as [vk X]; eapply IH; eauto].
  clear J IH. destruct t as [| | | |vals n1 n2| |kvs w|]; try destruct I; cbn [kids] in I; cbn [to_val] in T.
  - apply rbind_ok in T as (l & T & _). apply in_map_iff in I as (av & <- & I). revert l T.
    induction vals as [|a vals IHv]; intros l T; [destruct I|]. apply rmap_cons in T as (x & b & T1 & T2 & _). destruct I as [->|I]; eauto.
  - apply rbind_ok in T as (l & T & _). apply in_map_iff in I as (av & <- & I). revert l T.
    induction kvs as [|a kvs IHv]; intros l T; [destruct I|]. apply rmap_cons in T as (x & b & T1 & T2 & _). destruct I as [->|I]; eauto.
    apply rbind_ok in T1 as (y & T1 & _). eauto.
Qed.

(** cells of tables are not written *)
Lemma table_apart : forall h s key cl v ws x c, wf h s -> valof s.(p_map) key = Some cl -> to_val cl.(c_val) = Ok v ->
  Forall (fun w => In (fst w) (ids (subcells cl))) ws -> valof s.(p_map) x = Some c -> c.(c_val) = TTable -> upds ws c = c.
Proof.
  intros h s key cl v ws x [ci ct] W V T WI VX E. cbn [c_val] in E. subst ct. apply upds_absent. eapply Forall_impl; [|exact WI]. cbv beta.
  intros w I J. cbn [subcells c_val tcells flat_map ids map c_id] in J. destruct J as [J|J]; [|destruct J].
  apply in_map_iff in I as (c' & E & I). destruct (sub_to_val _ _ _ T I) as [v' T'].
  pose proof (co_good _ _ (wf_co _ _ W) _ _ V) as G. rewrite Forall_forall in G. destruct (G _ I) as [_ G1].
  pose proof (co_good _ _ (wf_co _ _ W) _ _ VX) as GX. apply Forall_inv in GX. destruct GX as [_ G2]. cbn [c_id c_val] in G2.
  rewrite E, <- J, G2 in G1. rewrite <- G1 in T'. discriminate T'.
Qed.

Lemma get_value_valof : forall s x, get_value s x = match valof s.(p_map) x with Some c => let? w := to_val c.(c_val) in Ok (Some w) | None => Ok None end.
Proof. intros s x. unfold get_value, valof. destruct (hget x (p_map s)) as [[[c|] ?]|]; reflexivity. Qed.

(** ** Addresses *)
Lemma under_cut : forall a b p, ~ under a b -> ~ under b a -> ~ under a (b ++ path_text p).
Proof.
  intros a b p N1 N2 U. apply under_stop in U as (r & R & E). apply app_eq_app in E as (m & [[E1 E2]|[E1 E2]]).
  - (* b = a ++ m *) apply N1. apply under_stop. exists m. split; [|auto]. destruct m; [exact I|]. rewrite E2 in R. exact R.
  - apply N2. apply under_stop. exists m. split; [|auto]. pose proof (path_stop p) as P. rewrite E2 in P. destruct m; [exact I|]. exact P.
Qed.

Lemma forall2_split_r : forall A B (R : A -> B -> Prop) b1 y b2 a, Forall2 R a (b1 ++ y :: b2) ->
  exists a1 x a2, a = a1 ++ x :: a2 /\ length a1 = length b1 /\ R x y.
Proof.
  intros A B R b1 y b2 a F. apply Forall2_app_inv_r in F as (a1 & a' & F1 & F2 & ->). inversion F2 as [|x ? a2 ? Q F3]; subst.
  exists a1, x, a2. split; auto. split; auto. clear - F1. induction F1; cbn [length]; auto.
Qed.

(** ** Sessions on any kind of lines *)
Section Session.
  Variable D : Type.
  Variable mk : str -> str -> str -> str -> value -> str -> str -> option str -> D.
  Variable pair_of : D -> option (str * str * str * str * value * str * str * option str).
  Variable dtext : D -> str.
  Variable key_of : list (str * D) -> str -> str.
  Variable ok : list (str * D) -> Prop.
  Variable reads : list (str * D) -> pst -> Prop.
  Let text (l : list (str * D)) : str := concat (map (fun x => fst x ++ dtext (snd x)) l).

  Hypothesis mk_text : forall w0 k w1 w2 v t w3 c, dtext (mk w0 k w1 w2 v t w3 c) = w0 ++ k ++ w1 ++ lit "=" ++ w2 ++ t ++ w3 ++ com_text c.
  Hypothesis pair_mk : forall w0 k w1 w2 v t w3 c, pair_of (mk w0 k w1 w2 v t w3 c) = Some (w0, k, w1, w2, v, t, w3, c).
  Hypothesis mk_pair : forall d w0 k w1 w2 v t w3 c, pair_of d = Some (w0, k, w1, w2, v, t, w3, c) -> d = mk w0 k w1 w2 v t w3 c.
  Hypothesis key_keep : forall l1 nl w0 k w1 w2 v t v' t' w3 c m k',
    key_of (l1 ++ (nl, mk w0 k w1 w2 v t w3 c) :: m) k' = key_of (l1 ++ (nl, mk w0 k w1 w2 v' t' w3 c) :: m) k'.
  Hypothesis apart : forall l1 nl w0 k w1 w2 v t w3 c m nl' w0' k' w1' w2' v' t' w3' c' l3,
    let l2 := l1 ++ (nl, mk w0 k w1 w2 v t w3 c) :: m in
    ok (l2 ++ (nl', mk w0' k' w1' w2' v' t' w3' c') :: l3) ->
    ~ under (key_of l1 k) (key_of l2 k') /\ ~ under (key_of l2 k') (key_of l1 k).
  Hypothesis ok_spells : forall l1 nl w0 k w1 w2 v t w3 c l2, ok (l1 ++ (nl, mk w0 k w1 w2 v t w3 c) :: l2) -> spells v t.
  Hypothesis ok_edit : forall l1 nl w0 k w1 w2 v t w3 c l2 v' t', ok (l1 ++ (nl, mk w0 k w1 w2 v t w3 c) :: l2) -> spells v' t' ->
    ok (l1 ++ (nl, mk w0 k w1 w2 v' t' w3 c) :: l2).
  Hypothesis ok_ne : forall ls, ok ls -> ls <> [].
  Hypothesis key_plain : forall l1 nl w0 k w1 w2 v t w3 c l2, ok (l1 ++ (nl, mk w0 k w1 w2 v t w3 c) :: l2) -> key_of l1 k <> root_key.
  Hypothesis parse_ok : forall ovf ls, ok ls -> exists s, parse (new_parser ovf) (text ls) = Ok (s, Full) /\ reads ls s.

  Definition mirror (d : D) (e : expression) : Prop :=
    ex_src e = dtext d /\
    match pair_of d with
    | Some (w0, k, w1, w2, v, t, w3, c) => exists cl, e = {| e_ws := {| ws1 := w0; ws2 := w3 |};
        e_keyval := Some (KeyVal k {| ws1 := w1; ws2 := w2 |} cl); e_table := None; e_comment := c |}
    | None => e.(e_keyval) = None
    end.
  Definition read_line (x : str * D) (e : nl_expression) : Prop := e.(ne_nl) = fst x /\ mirror (snd x) e.(ne_expr).

  Hypothesis reads_lines : forall ls s, ok ls -> reads ls s -> Forall2 read_line ls s.(p_root).
  Hypothesis reads_look : forall l1 nl w0 k w1 w2 v t w3 c l2 s p, let ls := l1 ++ (nl, mk w0 k w1 w2 v t w3 c) :: l2 in
    ok ls -> reads ls s -> good_path p ->
    get_value s (key_of l1 k ++ path_text p) = Ok (at_path v p) /\
    get_children s (key_of l1 k ++ path_text p) = option_map kids_of (at_path v p).
  Hypothesis reads_cell : forall l1 nl w0 k w1 w2 v t w3 c l2 s r1 e r2 cl, let ls := l1 ++ (nl, mk w0 k w1 w2 v t w3 c) :: l2 in
    ok ls -> reads ls s -> s.(p_root) = r1 ++ e :: r2 -> length r1 = length l1 -> ecell e.(ne_expr) = [cl] ->
    to_val cl.(c_val) = Ok v /\ forall p y, good_path p -> tat cl p = Some y -> valof s.(p_map) (key_of l1 k ++ path_text p) = Some y.
  Hypothesis reads_others : forall l1 nl w0 k w1 w2 v t w3 c l2 v' t' s s' x,
    let ls := fun v t => l1 ++ (nl, mk w0 k w1 w2 v t w3 c) :: l2 in
    ok (ls v t) -> ok (ls v' t') -> reads (ls v t) s -> reads (ls v' t') s' -> ~ under (key_of l1 k) x ->
    get_children s' x = get_children s x /\ get_value s' x = get_value s x.
  Definition free_of (x : str) (ls : list (str * D)) : Prop :=
    forall l1 nl w0 k w1 w2 v t w3 c l2, ls = l1 ++ (nl, mk w0 k w1 w2 v t w3 c) :: l2 -> ~ under (key_of l1 k) x.
  Hypothesis reads_table : forall ls s x c, ok ls -> reads ls s -> free_of x ls -> valof s.(p_map) x = Some c -> c.(c_val) = TTable.

  Definition deep (key : str) (v : value) (cl : cell) (s : pst) : Prop := forall p, good_path p ->
    valof s.(p_map) (key ++ path_text p) = tat cl p /\ get_children s (key ++ path_text p) = option_map kids_of (at_path v p).
  Record tracks (ls : list (str * D)) (m : list nat) (s : pst) : Prop := {
    tr_lines : Forall2 read_line ls s.(p_root);
    tr_cells : forall l1 nl w0 k w1 w2 v t w3 c l2 r1 e r2 cl, ls = l1 ++ (nl, mk w0 k w1 w2 v t w3 c) :: l2 ->
      s.(p_root) = r1 ++ e :: r2 -> length r1 = length l1 -> ecell e.(ne_expr) = [cl] ->
      valof s.(p_map) (key_of l1 k) = Some cl /\ to_val cl.(c_val) = Ok v /\ neat cl.(c_val) /\
      (~ In (length l1) m -> deep (key_of l1 k) v cl s) }.

  Lemma tr_src : forall ls m s, tracks ls m s -> toml_src s.(p_root) = text ls.
  Proof.
    intros ls m s [F _]. unfold toml_src, text. induction F as [|x e ls es [N [T _]] F IH]; auto. cbn [map concat]. f_equal; auto.
    unfold ne_src. rewrite N, T. auto.
  Qed.

  Definition the_line nl w0 k w1 w2 w3 c cl : nl_expression := {| ne_nl := nl; ne_expr := {| e_ws := {| ws1 := w0; ws2 := w3 |};
        e_keyval := Some (KeyVal k {| ws1 := w1; ws2 := w2 |} cl); e_table := None; e_comment := c |} |}.

  (** the expression of a line *)
  Lemma line_expr : forall l1 nl w0 k w1 w2 v t w3 c l2 r, Forall2 read_line (l1 ++ (nl, mk w0 k w1 w2 v t w3 c) :: l2) r ->
    exists r1 r2 cl, r = r1 ++ the_line nl w0 k w1 w2 w3 c cl :: r2 /\
      length r1 = length l1 /\ Forall2 read_line l1 r1 /\ Forall2 read_line l2 r2 /\ tsrc cl.(c_val) = t.
  Proof.
    intros until r. intros T. destruct (forall2_split _ _ _ _ _ _ _ T) as (r1 & [en ee] & r2 & E & L & F1 & [N M] & F2).
    cbn [fst snd ne_nl ne_expr] in *. subst en. destruct M as [X M]. rewrite pair_mk in M. destruct M as [cl ->].
    exists r1, r2, cl. split; auto. split; auto. split; auto. split; auto.
    rewrite mk_text in X. unfold ex_src, kv_src in X. cbn [e_ws e_keyval e_table e_comment ws1 ws2 kv_key kv_sep kv_val] in X.
    unfold sep_src in X. cbn [ws1 ws2 kv_key kv_sep kv_val] in X. rewrite <- !app_assoc in X.
    do 5 apply app_inv_head in X. cbn [app] in X.
    assert (CT : com_src c = com_text c) by (destruct c; reflexivity). rewrite CT in X.
    apply app_inv_tail in X. auto.
  Qed.
  Lemma tr_cell : forall l1 nl w0 k w1 w2 v t w3 c l2 m s, tracks (l1 ++ (nl, mk w0 k w1 w2 v t w3 c) :: l2) m s ->
    exists r1 r2 cl, s.(p_root) = r1 ++ the_line nl w0 k w1 w2 w3 c cl :: r2 /\
      length r1 = length l1 /\ Forall2 read_line l1 r1 /\ Forall2 read_line l2 r2 /\ tsrc cl.(c_val) = t /\
      valof s.(p_map) (key_of l1 k) = Some cl /\ to_val cl.(c_val) = Ok v /\ neat cl.(c_val) /\
      (~ In (length l1) m -> deep (key_of l1 k) v cl s).
  Proof.
    intros until s. intros T. destruct (line_expr _ _ _ _ _ _ _ _ _ _ _ _ (tr_lines _ _ _ T)) as (r1 & r2 & cl & E & L & F1 & F2 & X).
    exists r1, r2, cl. do 5 (split; auto).
    apply (tr_cells _ _ _ T l1 nl w0 k w1 w2 v t w3 c l2 r1 _ r2 cl eq_refl E L eq_refl).
  Qed.

  (** after parsing *)
  Lemma tr_parse : forall ovf ls s, ok ls -> parse (new_parser ovf) (text ls) = Ok (s, Full) -> reads ls s -> tracks ls [] s.
  Proof.
    intros ovf ls s OK P R. constructor; [apply reads_lines; auto|].
    intros l1 nl w0 k w1 w2 v t w3 c l2 r1 e r2 cl -> ER LR EC.
    destruct (line_expr _ _ _ _ _ _ _ _ _ _ _ _ (reads_lines _ _ OK R)) as (r1' & r2' & cl' & E & L & _ & _ & X).
    rewrite ER in E. apply same_split in E as (<- & -> & <-); [|congruence]. injection EC as <-.
    destruct (reads_cell _ _ _ _ _ _ _ _ _ _ _ _ _ _ _ _ OK R ER LR eq_refl) as [TV C].
    pose proof (reads_look _ _ _ _ _ _ _ _ _ _ _ _ [] OK R (Forall_nil _)) as [L0 _].
    split. { specialize (C [] cl' (Forall_nil _) eq_refl). cbn [path_text map concat] in C. rewrite app_nil_r in C. auto. }
    split; auto. split.
    { pose proof (parse_by _ _ _ _ P) as B. rewrite ER in B. apply Forall_app in B as [_ B]. pose proof (Forall_inv B) as B1. cbv beta in B1.
      apply (by_neat _ (KeyVal k {| ws1 := w1; ws2 := w2 |} cl') v t B1 eq_refl TV X). eapply ok_spells; eauto. }
    intros _ p GP. destruct (reads_look _ _ _ _ _ _ _ _ _ _ _ _ p OK R GP) as [G K]. split; auto.
    pose proof (tat_at p cl' v TV) as Q. destruct (at_path v p) as [x|] eqn:A.
    - destruct Q as (y & Q & _). rewrite Q. apply C; auto.
    - rewrite Q. unfold get_value in G. unfold valof. destruct (hget (key_of l1 k ++ path_text p) (p_map s)) as [hv|]; auto.
      destruct (hv_value hv) as [c0|]; auto. apply rbind_ok in G as (? & _ & G). discriminate G.
  Qed.

  Lemma mirror_new : forall w0 k w1 w2 v t w3 c cl, tsrc cl.(c_val) = t -> mirror (mk w0 k w1 w2 v t w3 c) {| e_ws := {| ws1 := w0; ws2 := w3 |};
      e_keyval := Some (KeyVal k {| ws1 := w1; ws2 := w2 |} cl); e_table := None; e_comment := c |}.
  Proof.
    intros w0 k w1 w2 v t w3 c cl <-. split; [|rewrite pair_mk; eauto]. rewrite mk_text.
    unfold ex_src, kv_src. cbn [e_ws e_keyval e_table e_comment ws1 ws2 kv_key kv_sep kv_val].
    unfold sep_src. cbn [ws1 ws2 kv_key kv_sep kv_val c_val]. rewrite <- !app_assoc. cbn [app]. destruct c; reflexivity.
  Qed.

  (** the writes of an update *)
  Lemma tr_step : forall h s s' l1 nl w0 k w1 w2 v t w3 c l2 v' t' ws cl m m',
    let ls := fun v t => l1 ++ (nl, mk w0 k w1 w2 v t w3 c) :: l2 in
    let key := key_of l1 k in
    wf h s -> ok (ls v t) -> tracks (ls v t) m s -> valof s.(p_map) key = Some cl ->
    s'.(p_root) = fold_left updt ws s.(p_root) -> valof s'.(p_map) key = Some (upds ws cl) ->
    (forall k', ~ under key k' -> valof s'.(p_map) k' = option_map (upds ws) (valof s.(p_map) k')) ->
    (forall x, ~ under key x -> get_children s' x = get_children s x) ->
    Forall (fun w => In (fst w) (ids (subcells cl))) ws ->
    to_val (upds ws cl).(c_val) = Ok v' -> tsrc (upds ws cl).(c_val) = t' -> neat (upds ws cl).(c_val) ->
    (forall i, In i m -> In i m') -> (~ In (length l1) m' -> deep key v' (upds ws cl) s') -> tracks (ls v' t') m' s'.
  Proof.
    intros until m'. intros ls key W OK T V RT VK VO VC WI TV TS NT MM DP.
    destruct (tr_cell _ _ _ _ _ _ _ _ _ _ _ _ _ T) as (r1 & r2 & cl' & E & L & F1 & F2 & _ & V' & _).
    fold key in V'. rewrite V in V'. injection V' as <-.
    pose proof (wf_dup _ _ W) as ND. set (e0 := the_line nl w0 k w1 w2 w3 c cl) in E. rewrite E in ND.
    assert (OUT : Forall (fun w => ~ In (fst w) (ids (toml_cells r1)) /\ ~ In (fst w) (ids (toml_cells r2))) ws).
    { eapply Forall_impl; [|exact WI]. cbv beta. intros w I. eapply ids_around; eauto. }
    set (e1 := the_line nl w0 k w1 w2 w3 c (upds ws cl)).
    assert (RT' : s'.(p_root) = r1 ++ e1 :: r2).
    { rewrite RT, E. pose proof (place_line r1 r2 nl {| ws1 := w0; ws2 := w3 |} k {| ws1 := w1; ws2 := w2 |} None c _ _ _ _ _ place_self) as PL.
      apply (root_fold _ _ _ _ _ ws cl PL). rewrite app_nil_r. cbn [app]. exact OUT. }
    assert (KEEP : forall k' c' c1, ~ under key k' -> valof s.(p_map) k' = Some c' -> In c' (subcells c1) -> In c1 (cells_in (r1 ++ r2)) ->
      valof s'.(p_map) k' = Some c').
    { intros k' c' c1 A C IS I. rewrite VO, C by auto. cbn [option_map]. rewrite upds_absent; auto.
      eapply Forall_impl; [|exact OUT]. cbv beta. intros w [N1 N2] J.
      unfold cells_in in I. apply in_flat_map in I as (x & I & Q). unfold ecell in Q.
      assert (JJ : forall r, In x r -> In (fst w) (ids (toml_cells r))).
      { intros r IR. unfold ids, toml_cells. apply in_map_iff in J as (y & EY & J). apply in_map_iff. exists y. split; auto.
        apply in_flat_map. exists x. split; auto. unfold ex_cells. destruct (e_keyval (ne_expr x)) as [kv|]; [|destruct Q].
        destruct Q as [Q|[]]. unfold kv_cells. rewrite Q. eapply subcells_trans; eauto. }
      apply in_app_or in I as [I|I]; [apply N1|apply N2]; apply JJ; auto. }
    assert (DEEP : forall k' v0 c1, ~ under key k' -> ~ under k' key -> In c1 (cells_in (r1 ++ r2)) -> deep k' v0 c1 s -> deep k' v0 c1 s').
    { intros k' v0 c1 A1 A2 I DO p GP. destruct (DO p GP) as [D1 D2]. pose proof (under_cut _ _ p A1 A2) as U.
      split; [|rewrite VC; auto]. destruct (tat c1 p) as [y|] eqn:Y.
      - eapply KEEP; eauto. eapply tat_in; eauto.
      - rewrite VO, D1 by auto. reflexivity. }
    assert (ONE : forall k' v0 c1, ~ under key k' -> ~ under k' key -> In c1 (cells_in (r1 ++ r2)) ->
      forall n, valof s.(p_map) k' = Some c1 /\ to_val c1.(c_val) = Ok v0 /\ neat c1.(c_val) /\ (~ In n m -> deep k' v0 c1 s) ->
      valof s'.(p_map) k' = Some c1 /\ to_val c1.(c_val) = Ok v0 /\ neat c1.(c_val) /\ (~ In n m' -> deep k' v0 c1 s')).
    { intros k' v0 c1 A1 A2 I n (O1 & O2 & O3 & O4). split; [eapply KEEP; eauto; left; auto|]. split; auto. split; auto.
      intros M. apply DEEP; auto. }
    constructor.
    - rewrite RT'. unfold ls. apply Forall2_app; auto. constructor; auto. split; auto. cbn [snd ne_expr e1 the_line]. apply mirror_new; auto.
    - unfold ls in *. intros l1' nl' w0' k' w1' w2' v0' t0' w3' c' l2' q1 e q2 cl' EQ ER LR EC.
      pose proof EQ as SP. apply two_splits in SP as [(<- & X & <-)|[(m0 & -> & ->)|(m0 & -> & ->)]].
      + injection X as <- X. apply (f_equal pair_of) in X. rewrite !pair_mk in X. injection X as <- <- <- <- <- <- <- <-.
        rewrite RT' in ER. apply same_split in ER as (_ & <- & _); [|congruence].
        unfold e1, the_line, ecell in EC. cbn [ne_expr e_keyval kv_val] in EC. injection EC as <-. auto.
      + destruct (forall2_split _ _ _ _ _ _ _ F2) as (rm & e' & r3 & -> & LM & FM & _ & _).
        rewrite RT' in ER. rewrite app_comm_cons, app_assoc in ER.
        apply same_split in ER as (<- & <- & <-); [|rewrite LR, !app_length; cbn [length]; congruence].
        destruct (apart l1 nl w0 k w1 w2 v t w3 c m0 nl' w0' k' w1' w2' v0' t0' w3' c' l2') as [A1 A2].
        { cbv zeta. rewrite <- app_assoc. exact OK. }
        rewrite (key_keep _ _ _ _ _ _ _ _ v t). apply ONE; auto.
        * unfold cells_in. apply in_flat_map. exists e'. split; [apply in_or_app; right; apply in_or_app; right; left; auto|].
          rewrite EC. left; auto.
        * assert (LL : length (l1 ++ (nl, mk w0 k w1 w2 v' t' w3 c) :: m0) = length (l1 ++ (nl, mk w0 k w1 w2 v t w3 c) :: m0))
            by (rewrite !app_length; reflexivity).
          rewrite LL.
          eapply (tr_cells _ _ _ T (l1 ++ (nl, mk w0 k w1 w2 v t w3 c) :: m0) nl' w0' k' w1' w2' v0' t0' w3' c' l2' (r1 ++ e0 :: rm) e' r3); auto.
          -- rewrite <- app_assoc. reflexivity.
          -- rewrite E, <- app_assoc. reflexivity.
          -- rewrite !app_length. cbn [length]. congruence.
      + destruct (forall2_split _ _ _ _ _ _ _ F1) as (rm & e' & r3 & -> & LM & FM & _ & _).
        rewrite RT' in ER. rewrite <- app_assoc in ER. cbn [app] in ER.
        apply same_split in ER as (<- & <- & <-); [|congruence].
        destruct (apart l1' nl' w0' k' w1' w2' v0' t0' w3' c' m0 nl w0 k w1 w2 v t w3 c l2) as [A1 A2]; auto.
        apply ONE; auto.
        * unfold cells_in. apply in_flat_map. exists e'. split; [|rewrite EC; left; auto].
          apply in_or_app. left. apply in_or_app. right. left; auto.
        * eapply (tr_cells _ _ _ T l1' nl' w0' k' w1' w2' v0' t0' w3' c' _ rm e' (r3 ++ e0 :: r2)); auto.
          -- rewrite <- app_assoc. reflexivity.
          -- rewrite E, <- app_assoc. reflexivity.
  Qed.

  (** what an update leaves alone *)
  Definition keeps (ls : list (str * D)) (s s' : pst) : Prop := forall x, free_of x ls -> get_children s' x = get_children s x /\
    ((forall c, valof s.(p_map) x = Some c -> c.(c_val) = TTable) -> valof s'.(p_map) x = valof s.(p_map) x).

  Lemma keeps_step : forall h s s' key cl v ws ls, wf h s -> valof s.(p_map) key = Some cl -> to_val cl.(c_val) = Ok v ->
    Forall (fun w => In (fst w) (ids (subcells cl))) ws -> (forall x, free_of x ls -> ~ under key x) ->
    (forall k', ~ under key k' -> valof s'.(p_map) k' = option_map (upds ws) (valof s.(p_map) k')) ->
    (forall x, ~ under key x -> get_children s' x = get_children s x) -> keeps ls s s'.
  Proof.
    intros h s s' key cl v ws ls W V T WI CL VO VC x C. split; [auto|]. intros TT. rewrite VO by auto.
    destruct (valof (p_map s) x) as [c|] eqn:VX; auto. cbn [option_map]. f_equal. apply (table_apart h s key cl v ws x c W V T WI VX). auto.
  Qed.

  Lemma step_path : forall ovf l1 nl w0 k w1 w2 v t w3 c l2 m p u x t' s, let ls := fun v t => l1 ++ (nl, mk w0 k w1 w2 v t w3 c) :: l2 in
    ok (ls v t) -> tracks (ls v t) m s -> reach ovf s -> p = [] \/ ~ In (length l1) m -> good_path p -> at_path v p = Some x ->
    respells v t (put_at p u v) t' ->
    exists s', set_value s (key_of l1 k ++ path_text p) u = Ok (s', true) /\ tracks (ls (put_at p u v) t') m s' /\ keeps (ls v t) s s'.
  Proof.
    intros until s. intros ls OK T RC PM GP A R. destruct (reach_wf _ _ RC) as (h & W).
    destruct (tr_cell _ _ _ _ _ _ _ _ _ _ _ _ _ T) as (r1 & r2 & cl & E & L & F1 & F2 & TS & V & TV & NT & DP).
    set (key := key_of l1 k) in *.
    assert (Y : exists y, valof s.(p_map) (key ++ path_text p) = Some y /\ tat cl p = Some y).
    { pose proof (tat_at p cl v TV) as Q. rewrite A in Q. destruct Q as (y & Q & _). exists y. split; auto. destruct PM as [->|NM].
      - cbn [path_text map concat]. rewrite app_nil_r. cbn [tat] in Q. congruence.
      - destruct (DP NM p GP) as [D1 _]. congruence. }
    destruct Y as (y & VY & TY).
    destruct (path_set _ _ _ _ _ _ _ _ _ _ _ W V TV TS NT A R VY TY) as (ws & SV & UP & WI & TV' & TS' & NT').
    set (s' := fold_left write ws s) in *. exists s'. split; auto.
    assert (RC' : reach ovf s') by (eapply R_set; eauto). destruct (reach_wf _ _ RC') as (h' & W').
    assert (VM : forall k', valof s'.(p_map) k' = option_map (upds ws) (valof s.(p_map) k')) by (intros; apply map_writes').
    assert (VK : valof s'.(p_map) key = Some (upds ws cl)) by (rewrite VM, V; reflexivity).
    pose proof (respells_shape _ _ _ _ R) as SH.
    split.
    - eapply (tr_step h s s' l1 nl w0 k w1 w2 v t w3 c l2 (put_at p u v) t' ws cl m m); eauto; fold key; auto.
      + apply writes_root.
      + intros. apply get_children_writes.
      + rewrite UP. exact TV'.
      + rewrite UP. exact TS'.
      + rewrite UP. exact NT'.
      + intros NM q GQ. destruct (DP NM q GQ) as [D1 D2]. split.
        * rewrite VM, D1. pose proof (tat_fill q cl v _ TV SH) as TF. rewrite <- UP in TF.
          destruct (tat cl q) as [z|] eqn:Z; destruct (tat (upds ws cl) q) as [z'|] eqn:Z'; try contradiction; auto. cbn [option_map].
          pose proof (co_good _ _ (wf_co _ _ W') _ _ VK) as G. rewrite Forall_forall in G. destruct (G _ (tat_in _ _ _ Z')) as [_ G1].
          assert (VZ : valof s'.(p_map) (key ++ path_text q) = Some (upds ws z)) by (rewrite VM, D1; reflexivity).
          pose proof (co_good _ _ (wf_co _ _ W') _ _ VZ) as GX. apply Forall_inv in GX. destruct GX as [_ G2].
          assert (ID : c_id (upds ws z) = c_id z') by (rewrite upds_id; auto). rewrite ID in G2.
          f_equal. destruct (upds ws z) as [i1 t1], z' as [i2 t2]. cbn [c_id c_val] in *. congruence.
        * unfold s'. rewrite get_children_writes, D2. pose proof (shape_at q _ _ SH) as SA.
          destruct (at_path v q), (at_path (put_at p u v) q); try contradiction; auto. cbn [option_map]. f_equal. apply shape_kids; auto.
    - apply (keeps_step h s s' key cl v ws); auto.
      + intros z C. eapply C. unfold ls. reflexivity.
      + intros. apply get_children_writes.
  Qed.

  Lemma step_new : forall ovf l1 nl w0 k w1 w2 v t w3 c l2 m v' t' s, let ls := fun v t => l1 ++ (nl, mk w0 k w1 w2 v t w3 c) :: l2 in
    ok (ls v t) -> tracks (ls v t) m s -> reach ovf s -> remakes v v' t' ->
    exists s', set_value s (key_of l1 k) v' = Ok (s', true) /\ tracks (ls v' t') (length l1 :: m) s' /\ keeps (ls v t) s s'.
  Proof.
    intros until s. intros ls OK T RC R. destruct (reach_wf _ _ RC) as (h & W).
    destruct (tr_cell _ _ _ _ _ _ _ _ _ _ _ _ _ T) as (r1 & r2 & cl & E & L & F1 & F2 & TS & V & TV & NT & DP).
    pose proof (key_plain _ _ _ _ _ _ _ _ _ _ _ OK) as NR. set (key := key_of l1 k) in *.
    destruct (remake_set _ _ _ _ _ _ _ W NR V TV R) as (s' & nv & SV & RT & VK & VO & VC & TV' & TS' & NT').
    exists s'. split; auto. set (ws := [(c_id cl, nv)]).
    assert (UP : upds ws cl = Cell (c_id cl) nv). { unfold ws, upds. cbn [fold_left fst snd]. rewrite upd_c_eq, N.eqb_refl. auto. }
    assert (WI : Forall (fun w => In (fst w) (ids (subcells cl))) ws). { constructor; [|constructor]. cbn [fst]. rewrite ids_subcells. left; auto. }
    assert (VO' : forall k', ~ under key k' -> valof s'.(p_map) k' = option_map (upds ws) (valof s.(p_map) k')).
    { intros k' U. apply VO; intros Q; apply U; [left|right]; auto. }
    assert (VC' : forall k', ~ under key k' -> get_children s' k' = get_children s k').
    { intros k' U. apply VC; intros Q; apply U; [left|right]; auto. }
    split.
    - eapply (tr_step h s s' l1 nl w0 k w1 w2 v t w3 c l2 v' t' ws cl m (length l1 :: m)); eauto; fold key; auto.
      + rewrite UP. auto.
      + rewrite UP. exact TV'.
      + rewrite UP. exact TS'.
      + rewrite UP. exact NT'.
      + intros i I. right. auto.
      + intros N. destruct N. left. auto.
    - apply (keeps_step h s s' key cl v ws); auto. intros z C. eapply C. unfold ls. reflexivity.
  Qed.

  (** names of the lines *)
  Lemma clear_keep : forall l1 nl w0 k w1 w2 v t w3 c l2 v' t' x, free_of x (l1 ++ (nl, mk w0 k w1 w2 v t w3 c) :: l2) ->
    free_of x (l1 ++ (nl, mk w0 k w1 w2 v' t' w3 c) :: l2).
  Proof.
    intros until x. intros C l1' nl' w0' k' w1' w2' v0' t0' w3' c' l2' E.
    apply two_splits in E as [(<- & X & <-)|[(m0 & -> & ->)|(m0 & -> & ->)]].
    - injection X as <- X. apply (f_equal pair_of) in X. rewrite !pair_mk in X. injection X as <- <- <- <- <- <- <- <-.
      eapply C; reflexivity.
    - rewrite (key_keep _ _ _ _ _ _ _ _ v t). eapply C. rewrite <- app_assoc. reflexivity.
    - eapply C. rewrite <- app_assoc. reflexivity.
  Qed.

  Definition all_filled (ls : list (str * D)) : Prop :=
    forall l1 nl w0 k w1 w2 v t w3 c l2, ls = l1 ++ (nl, mk w0 k w1 w2 v t w3 c) :: l2 -> DocSpec.filled v.
  Lemma filled_keep : forall l1 nl w0 k w1 w2 v t w3 c l2 v' t', all_filled (l1 ++ (nl, mk w0 k w1 w2 v t w3 c) :: l2) ->
    (DocSpec.filled v -> DocSpec.filled v') -> all_filled (l1 ++ (nl, mk w0 k w1 w2 v' t' w3 c) :: l2).
  Proof.
    intros until t'. intros C V l1' nl' w0' k' w1' w2' v0' t0' w3' c' l2' E.
    apply two_splits in E as [(<- & X & <-)|[(m0 & -> & ->)|(m0 & -> & ->)]].
    - injection X as <- X. apply (f_equal pair_of) in X. rewrite !pair_mk in X. injection X as <- <- <- <- <- <- <- <-.
      apply V. eapply C; reflexivity.
    - apply (C (l1 ++ (nl, mk w0 k w1 w2 v t w3 c) :: m0) nl' w0' k' w1' w2' v0' t0' w3' c' l2'). rewrite <- app_assoc. reflexivity.
    - eapply C. rewrite <- app_assoc. reflexivity.
  Qed.

  (** the updates, in memory *)
  Lemma run : forall ls m us ls' m', edits mk key_of ls m us ls' m' -> forall ovf s, ok ls -> all_filled ls -> tracks ls m s -> reach ovf s ->
    exists s', sets s us s' /\ tracks ls' m' s' /\ reach ovf s' /\ ok ls' /\ all_filled ls' /\ keeps ls s s'.
  Proof.
    intros ls m us ls' m' H. induction H as [ls m|l1 nl w0 k w1 w2 v t w3 c l2 m p u x t' us ls' m' PM GP A R H IH|l1 nl w0 k w1 w2 v t w3 c l2 m v' t' us ls' m' R H IH];
      intros ovf s OK AF T RC.
    - exists s. split; [constructor|]. do 4 (split; auto). intros x C. auto.
    - destruct (step_path _ _ _ _ _ _ _ _ _ _ _ _ _ _ _ _ _ _ OK T RC PM GP A R) as (s1 & SV & T1 & K1).
      destruct (IH ovf s1) as (s' & SS & T' & RC' & OK' & AF' & K').
      + eapply ok_edit; eauto. eapply respells_spells; eauto.
      + eapply filled_keep; eauto. eapply respells_filled; eauto.
      + exact T1.
      + eapply R_set; eauto.
      + exists s'. split; [econstructor; eauto|]. do 4 (split; auto). intros z C. destruct (K1 z C) as [A1 A2].
        destruct (K' z (clear_keep _ _ _ _ _ _ _ _ _ _ _ _ _ _ C)) as [B1 B2]. split; [congruence|]. intros TT. rewrite <- (A2 TT). apply B2.
        intros c0. rewrite (A2 TT). apply TT.
    - destruct (step_new _ _ _ _ _ _ _ _ _ _ _ _ _ _ _ _ OK T RC R) as (s1 & SV & T1 & K1).
      destruct (IH ovf s1) as (s' & SS & T' & RC' & OK' & AF' & K').
      + eapply ok_edit; eauto. eapply remakes_spells; eauto.
      + eapply filled_keep; eauto. intros _. eapply remakes_filled; eauto.
      + exact T1.
      + eapply R_set; eauto.
      + exists s'. split; [econstructor; eauto|]. do 4 (split; auto). intros z C. destruct (K1 z C) as [A1 A2].
        destruct (K' z (clear_keep _ _ _ _ _ _ _ _ _ _ _ _ _ _ C)) as [B1 B2]. split; [congruence|]. intros TT. rewrite <- (A2 TT). apply B2.
        intros c0. rewrite (A2 TT). apply TT.
  Qed.

  (** the texts before and after, read *)
  Lemma reread : forall ls m us ls' m', edits mk key_of ls m us ls' m' -> forall ovf s, ok ls -> parse (new_parser ovf) (text ls) = Ok (s, Full) -> reads ls s ->
    exists s2, parse (new_parser ovf) (text ls') = Ok (s2, Full) /\ reads ls' s2 /\
      forall x, free_of x ls -> get_children s2 x = get_children s x /\ get_value s2 x = get_value s x.
  Proof.
    assert (ST : forall l1 nl w0 k w1 w2 v t w3 c l2 v' t' ls' ovf s,
      (forall ovf s, ok (l1 ++ (nl, mk w0 k w1 w2 v' t' w3 c) :: l2) -> parse (new_parser ovf) (text (l1 ++ (nl, mk w0 k w1 w2 v' t' w3 c) :: l2)) = Ok (s, Full) ->
        reads (l1 ++ (nl, mk w0 k w1 w2 v' t' w3 c) :: l2) s ->
        exists s2, parse (new_parser ovf) (text ls') = Ok (s2, Full) /\ reads ls' s2 /\
        forall x, free_of x (l1 ++ (nl, mk w0 k w1 w2 v' t' w3 c) :: l2) -> get_children s2 x = get_children s x /\ get_value s2 x = get_value s x) ->
      ok (l1 ++ (nl, mk w0 k w1 w2 v t w3 c) :: l2) -> reads (l1 ++ (nl, mk w0 k w1 w2 v t w3 c) :: l2) s -> spells v' t' ->
      exists s2, parse (new_parser ovf) (text ls') = Ok (s2, Full) /\ reads ls' s2 /\
        forall x, free_of x (l1 ++ (nl, mk w0 k w1 w2 v t w3 c) :: l2) -> get_children s2 x = get_children s x /\ get_value s2 x = get_value s x).
    { intros until s. intros IH OK RD SP. pose proof (ok_edit _ _ _ _ _ _ _ _ _ _ _ _ _ OK SP) as OK1.
      destruct (parse_ok ovf _ OK1) as (s1 & P1 & R1). destruct (IH ovf s1 OK1 P1 R1) as (s2 & P2 & R2 & X2).
      exists s2. split; auto. split; auto. intros x C. destruct (X2 x (clear_keep _ _ _ _ _ _ _ _ _ _ _ _ _ _ C)) as [B1 B2].
      destruct (reads_others _ _ _ _ _ _ _ _ _ _ _ _ _ _ _ x OK OK1 RD R1) as [A1 A2]; [eapply C; reflexivity|]. split; congruence. }
    intros ls m us ls' m' H. induction H as [ls m|l1 nl w0 k w1 w2 v t w3 c l2 m p u x t' us ls' m' PM GP A R H IH|l1 nl w0 k w1 w2 v t w3 c l2 m v' t' us ls' m' R H IH];
      intros ovf s OK P RD.
    - exists s. auto.
    - eapply ST; eauto. eapply respells_spells; eauto.
    - eapply ST; eauto. eapply remakes_spells; eauto.
  Qed.

  Lemma tr_show : forall ovf ls m s, ok ls -> all_filled ls -> tracks ls m s -> reach ovf s -> show_parser s = Ok (text ls).
  Proof.
    intros ovf ls m s OK AF T RC. apply (shaped_show s _ (reach_shape _ _ RC)). pose proof (tr_lines _ _ _ T) as F. split; [|split].
    - intros E. rewrite E in F. inversion F; subst. apply (ok_ne _ OK). auto.
    - unfold doc_printable. apply Forall_forall. intros e I. unfold ex_printable. destruct (e_keyval (ne_expr e)) as [kv|] eqn:K; auto.
      apply in_split in I as (r1 & r2 & E). rewrite E in F. apply forall2_split_r in F as (l1 & [nl d] & l2 & -> & L & [N M]). cbn [fst snd] in *.
      destruct M as [_ M]. destruct (pair_of d) as [[[[[[[[w0 k] w1] w2] v] t] w3] c]|] eqn:PD; [|congruence]. apply mk_pair in PD. subst d.
      destruct M as [cl M]. rewrite M in K. cbn [e_keyval] in K. injection K as <-. cbn [kv_val].
      assert (EC : ecell (ne_expr e) = [cl]) by (rewrite M; reflexivity).
      destruct (tr_cells _ _ _ T l1 nl w0 k w1 w2 v t w3 c l2 r1 e r2 cl eq_refl E (eq_sym L) EC) as (_ & TV & _).
      eapply filled_printable; eauto.
    - symmetry. eapply tr_src; eauto.
  Qed.

  Theorem session_holds : forall ovf ls us ls' m', ok ls -> (forall n key v, gives mk key_of ls n key v -> DocSpec.filled v) ->
    edits mk key_of ls [] us ls' m' -> session mk key_of ovf text ls us ls' m'.
  Proof.
    intros ovf ls us ls' m' OK AF0 H.
    assert (AF : all_filled ls) by (intros until l2; intros E; eapply AF0; do 10 eexists; split; [exact E|auto]). destruct (parse_ok ovf _ OK) as (s & P & RD). pose proof (tr_parse _ _ _ OK P RD) as T0.
    assert (RC : reach ovf s) by (eapply R_parse; [apply R_new|eauto]).
    destruct (run _ _ _ _ _ H ovf s OK AF T0 RC) as (s' & SS & T' & RC' & OK' & AF' & K).
    destruct (reread _ _ _ _ _ H ovf s OK P RD) as (s2 & P2 & RD2 & X).
    exists s, s', s2. split; auto. split; auto. split; [eapply tr_show; eauto|]. split; auto. split.
    - intros n key v (l1 & nl & w0 & k & w1 & w2 & t & w3 & c & l2 & -> & -> & ->). destruct (tr_cell _ _ _ _ _ _ _ _ _ _ _ _ _ T') as (r1 & r2 & cl & _ & _ & _ & _ & _ & V & TV & _ & DP).
      assert (GV : forall key y, valof (p_map s') key = Some y -> get_value s' key = let? w := to_val y.(c_val) in Ok (Some w)).
      { intros key y VV. destruct (valof_hget _ _ _ VV) as (hv & G & HV). unfold get_value. rewrite G, HV. reflexivity. }
      split; [rewrite (GV _ _ V), TV; reflexivity|]. split; [intros p GP; apply (reads_look _ _ _ _ _ _ _ _ _ _ _ _ p OK' RD2 GP)|].
      intros NM p GP. destruct (DP NM p GP) as [D1 D2]. split; auto. pose proof (tat_at p cl v TV) as Q. destruct (at_path v p) as [x|].
      + destruct Q as (y & Q & TX). rewrite Q in D1. rewrite (GV _ _ D1), TX. reflexivity.
      + rewrite Q in D1. unfold valof in D1. unfold get_value. destruct (hget (key_of l1 k ++ path_text p) (p_map s')) as [hv|]; auto.
        rewrite D1. auto.
    - intros x C0. assert (C : free_of x ls). { intros until l2; intros E U. destruct (C0 (length l1) (key_of l1 k) v) as [U1 U2]; [do 10 eexists; split; [exact E|auto]|destruct U; auto]. } destruct (K x C) as [K1 K2]. destruct (X x C) as [X1 X2]. do 3 (split; auto).
      assert (VE : valof (p_map s') x = valof (p_map s) x) by (apply K2; intros c0 V0; exact (reads_table _ _ _ _ OK RD C V0)).
      rewrite !get_value_valof, VE. reflexivity.
  Qed.
End Session.
